(** The ring of contact buffers, and how many there are *)
From Coq Require Import ZArith Arith Bool List Lia Sorted.
From Verif Require Import Num SpecContacts.
From Verif.Model Require Import Vector Solver Contacts.
From Verif.Proofs Require Import ContactsPf ContactsPf2 ContactsPf3.
Import ListNotations.
Local Open Scope nat_scope.

(** following [nx] along [l] and then to [y] *)
Fixpoint linked (nx : nat -> nat) (l : list nat) (y : nat) : Prop :=
  match l with
  | [] => True
  | b :: r => nx b = hd y r /\ linked nx r y
  end.
Lemma linked_ext nx nx' l y : (forall b, In b l -> nx' b = nx b) -> linked nx l y -> linked nx' l y.
Proof.
  intros E. induction l as [|b r IH]; [auto|]. cbn. intros (A & B). split; [rewrite E by (now left); exact A|].
  apply IH; [|exact B]. intros c Hc. apply E. now right.
Qed.
Lemma linked_snoc nx l c y : linked nx l c -> nx c = y -> linked nx (l ++ [c]) y.
Proof.
  intros L N. induction l as [|b r IH]; [now cbn|]. destruct L as (A & B). cbn [app linked]. split; [|now apply IH].
  rewrite A. destruct r; reflexivity.
Qed.
Lemma linked_relast nx nx' l h y y' : NoDup (l ++ [h]) -> linked nx (l ++ [h]) y -> (forall b, b <> h -> nx' b = nx b) -> nx' h = y' -> linked nx' (l ++ [h]) y'.
Proof.
  intros D L E N. induction l as [|b r IH]; [now cbn|]. cbn [app linked] in *. destruct L as (A & B).
  inversion D as [|? ? D1 D2]; subst. split; [|now apply IH].
  rewrite E; [rewrite A; destruct r; reflexivity|]. intros ->. apply D1. apply in_or_app. right. now left.
Qed.

Section Pf.
Context {T : Type} `{Num T}.
Notation Con := (Contact T).
Implicit Types s : CSpace T.

Definition st s b := u_stamp (k_bufs s b).
Definition nm s b := u_num (k_bufs s b).
Definition nxt s b := u_next (k_bufs s b).
Record ringed s (l : list nat) : Prop := mkRinged {
  r_link : linked (nxt s) l (hd 0 l);
  r_nodup : NoDup l;
  r_all : forall b, In b l <-> b < k_nbufs s;
  r_some : forall h, k_head s = Some h -> exists l', l = l' ++ [h];
  r_none : k_head s = None -> l = [];
  r_sort : StronglySorted (fun a b => st s a <= st s b) l;
  r_now : forall b, In b l -> st s b <= k_stamp s }.

Definition tot (f : nat -> nat -> nat) s (l : list nat) : nat := list_sum (map (fun b => f (st s b) (nm s b)) l).
Lemma tot_app f s l l' : tot f s (l ++ l') = tot f s l + tot f s l'.
Proof. unfold tot. now rewrite map_app, list_sum_app. Qed.
Lemma tot_cons f s b l : tot f s (b :: l) = f (st s b) (nm s b) + tot f s l.
Proof. reflexivity. Qed.
Lemma tot_ext f s s' l : (forall b, In b l -> st s' b = st s b /\ nm s' b = nm s b) -> tot f s' l = tot f s l.
Proof. intros E. unfold tot. f_equal. apply map_ext_in. intros b Hb. destruct (E b Hb) as (-> & ->). reflexivity. Qed.
Lemma sorted_ext (R R' : nat -> nat -> Prop) l : (forall a b, In a l -> In b l -> R a b -> R' a b) -> StronglySorted R l -> StronglySorted R' l.
Proof.
  intros E. induction 1 as [|a l S IH F]; constructor.
  - apply IH. intros x y Hx Hy. apply E; now right.
  - rewrite Forall_forall in *. intros x Hx. apply E; [now left|now right|now apply F].
Qed.
Lemma sorted_snoc (R : nat -> nat -> Prop) l c : StronglySorted R l -> (forall a, In a l -> R a c) -> StronglySorted R (l ++ [c]).
Proof.
  induction 1 as [|a l S IH F]; intros E; cbn [app]; [repeat constructor|]. constructor.
  - apply IH. intros x Hx. apply E. now right.
  - apply Forall_app. split; [exact F|]. repeat constructor. apply E. now left.
Qed.
Lemma nodup_snoc (l : list nat) c : NoDup l -> ~ In c l -> NoDup (l ++ [c]).
Proof.
  induction 1 as [|a l Ha _ IH]; intros N; cbn [app]; [repeat constructor; auto|]. constructor.
  - intros X. apply in_app_or in X. destruct X as [X|[->|[]]]; [auto|]. apply N. now left.
  - apply IH. intros X. apply N. now right.
Qed.

(** the ring after a push: the reused buffer moves to the end, or a new one is appended *)
Lemma push_ringed s l : ringed s l -> exists l' h, ringed (push_fresh s) l' /\ k_head (push_fresh s) = Some h /\
  nm (push_fresh s) h = 0 /\ st (push_fresh s) h = k_stamp s /\ k_stamp (push_fresh s) = k_stamp s /\
  (forall b, In b l' -> b <> h -> In b l /\ st (push_fresh s) b = st s b /\ nm (push_fresh s) b = nm s b) /\
  ((exists t, In t l /\ st s t < k_stamp s /\ length l' = length l /\ forall f, tot f (push_fresh s) l' + f (st s t) (nm s t) = tot f s l + f (k_stamp s) 0) \/
   (length l' = S (length l) /\ (forall b, In b l -> k_stamp s - st s b <= 3) /\ forall f, tot f (push_fresh s) l' = tot f s l + f (k_stamp s) 0)).
Proof.
  intros [Lk Nd Al So No Sr Nw]. unfold push_fresh. destruct (k_head s) as [h|] eqn:Hh.
  - destruct (So h eq_refl) as (l0 & El).
    assert (Nx : nxt s h = hd 0 l).
    { subst l. clear - Lk. revert Lk. generalize (hd 0 (l0 ++ [h])) as y. induction l0 as [|b r IH]; intros y; cbn [app linked]; [intros (A & _); exact A|]. intros (_ & A). now apply IH. }
    destruct l as [|t r] eqn:Elr; [destruct l0; discriminate|]. cbn [hd] in Nx, Lk. rewrite <- Elr in *. unfold nxt in Nx. rewrite Nx.
    assert (It : In t l) by (rewrite Elr; now left).
    destruct (persistence <? k_stamp s - u_stamp (k_bufs s t)) eqn:Old.
    + apply Nat.ltb_lt in Old. set (s1 := with_head _ _).
      assert (Bt : k_bufs s1 t = mkCBuf (k_stamp s) (nxt s t) 0 (u_con (k_bufs s t))) by (unfold s1; cbn; now rewrite upd_eq).
      assert (Bo : forall b, b <> t -> k_bufs s1 b = k_bufs s b) by (intros b N; unfold s1; cbn; now rewrite upd_ne).
      rewrite Elr in Nd. inversion Nd as [|? ? Nt Nr]; subst x l1.
      assert (Or : forall b, In b r -> b <> t) by (intros b Hb ->; contradiction).
      exists (r ++ [t]), t. split; [|split; [reflexivity|split; [|split; [|split; [reflexivity|split]]]]].
      * constructor.
        -- rewrite Elr in Lk. destruct Lk as (A & B).
           apply (linked_ext (nxt s) (nxt s1)).
           { intros b Hb. unfold nxt. destruct (Nat.eq_dec b t) as [->|N]; [rewrite Bt|rewrite (Bo b N)]; reflexivity. }
           apply linked_snoc; [exact B|]. rewrite A. destruct r; reflexivity.
        -- now apply nodup_snoc.
        -- intros b. change (k_nbufs s1) with (k_nbufs s). rewrite <- Al, Elr, in_app_iff. cbn. tauto.
        -- intros h' E. cbn in E. injection E as <-. now exists r.
        -- discriminate.
        -- rewrite Elr in Sr. inversion Sr as [|? ? S1 F]; subst. apply sorted_snoc.
           ++ eapply sorted_ext; [|exact S1]. intros a b Ha Hb. unfold st. now rewrite (Bo a (Or a Ha)), (Bo b (Or b Hb)).
           ++ intros a Ha. unfold st. rewrite Bt, (Bo a (Or a Ha)). cbn [u_stamp]. apply Nw. now right.
        -- intros b Hb. apply in_app_or in Hb. destruct Hb as [Hb|[<-|[]]]; [|unfold st; rewrite Bt; apply le_n].
           unfold st. rewrite (Bo b (Or b Hb)). apply Nw. rewrite Elr. now right.
      * unfold nm. now rewrite Bt.
      * unfold st. now rewrite Bt.
      * intros b Hb N. apply in_app_or in Hb. destruct Hb as [Hb|[<-|[]]]; [|congruence].
        unfold st, nm. rewrite (Bo b N). split; [rewrite Elr; now right|auto].
      * left. exists t. split; [exact It|]. split; [unfold st; unfold persistence in Old; lia|]. split; [rewrite Elr, app_length; cbn; lia|].
        intros f. rewrite tot_app, Elr. change (t :: r) with ([t] ++ r). rewrite tot_app.
        rewrite (tot_ext f s s1 r) by (intros b Hb; unfold st, nm; now rewrite (Bo b (Or b Hb))).
        unfold tot at 2 3. cbn. unfold st, nm. rewrite Bt. cbn. lia.
    + apply Nat.ltb_ge in Old. set (c := k_nbufs s) in *.
      set (s1 := let '(s0, c0) := new_buffer s (k_stamp s) (Some h) in
        with_head (with_bufs s0 (upd (k_bufs s0) h
          {| u_stamp := u_stamp (k_bufs s0 h); u_next := c0; u_num := u_num (k_bufs s0 h); u_con := u_con (k_bufs s0 h) |})) c0).
      assert (Ic : forall b, In b l -> b <> c) by (intros b Hb; apply Al in Hb; unfold c; lia).
      assert (Ih : In h l) by (rewrite El; apply in_or_app; right; now left).
      assert (Hc : h <> c) by (now apply Ic).
      assert (Bc : k_bufs s1 c = mkCBuf (k_stamp s) t 0 (fun _ => zero_con)).
      { unfold s1. cbn. fold c. rewrite (upd_ne _ h) by congruence. rewrite upd_eq. rewrite upd_eq. rewrite (upd_ne _ c) by exact Hc. cbn. now rewrite Nx. }
      assert (Bo : forall b, b <> c -> st s1 b = st s b /\ nm s1 b = nm s b).
      { intros b N. unfold st, nm, s1. cbn. fold c. destruct (Nat.eq_dec b h) as [->|Nh].
        - rewrite upd_eq. cbn. now rewrite !upd_ne by exact Hc.
        - rewrite (upd_ne _ h) by exact Nh. now rewrite !upd_ne by exact N. }
      assert (Bn : forall b, b <> c -> b <> h -> nxt s1 b = nxt s b).
      { intros b N Nh. unfold nxt, s1. cbn. fold c. rewrite (upd_ne _ h) by exact Nh. now rewrite !upd_ne by exact N. }
      assert (Bh : nxt s1 h = c) by (unfold nxt, s1; cbn; fold c; now rewrite upd_eq).
      exists (l ++ [c]), c. split; [|split; [reflexivity|split; [|split; [|split; [reflexivity|split]]]]].
      * constructor.
        -- apply linked_snoc.
           ++ rewrite El in *. apply (linked_relast (fun b => if b =? c then nxt s1 c else nxt s b) _ l0 h t); [exact Nd| | |exact Bh].
              ** eapply linked_ext; [|exact Lk]. intros b Hb. specialize (Ic b Hb). apply Nat.eqb_neq in Ic. cbn. now rewrite Ic.
              ** intros b N. destruct (b =? c) eqn:Q; [apply Nat.eqb_eq in Q; now subst|]. apply Nat.eqb_neq in Q. now apply Bn.
           ++ unfold nxt. rewrite Bc. rewrite Elr. reflexivity.
        -- apply nodup_snoc; [exact Nd|]. intros X. now apply (Ic c X).
        -- intros b. change (k_nbufs s1) with (S c). rewrite in_app_iff, Al. cbn. unfold c. split; [intros [X|[X|[]]]; lia|intros X].
           destruct (Nat.eq_dec b (k_nbufs s)); [right; left; auto|left; lia].
        -- intros h' E. cbn in E. injection E as <-. now exists l.
        -- discriminate.
        -- apply sorted_snoc.
           ++ eapply sorted_ext; [|exact Sr]. intros a b Ha Hb. destruct (Bo a (Ic a Ha)) as (-> & _). destruct (Bo b (Ic b Hb)) as (-> & _). auto.
           ++ intros a Ha. destruct (Bo a (Ic a Ha)) as (-> & _). unfold st at 2. rewrite Bc. now apply Nw.
        -- intros b Hb. change (k_stamp s1) with (k_stamp s). apply in_app_or in Hb. destruct Hb as [Hb|[<-|[]]].
           ++ destruct (Bo b (Ic b Hb)) as (-> & _). now apply Nw.
           ++ unfold st. rewrite Bc. apply le_n.
      * unfold nm. change (u_num (k_bufs s1 c) = 0). now rewrite Bc.
      * unfold st. change (u_stamp (k_bufs s1 c) = k_stamp s). now rewrite Bc.
      * intros b Hb N. apply in_app_or in Hb. destruct Hb as [Hb|[<-|[]]]; [|congruence]. split; [exact Hb|]. now apply Bo.
      * right. split; [rewrite app_length; cbn; lia|]. split.
        -- intros b Hb. rewrite Elr in Sr. inversion Sr as [|? ? S1 F]; subst. destruct Hb as [<-|Hb]; [exact Old|].
           rewrite Forall_forall in F. specialize (F b Hb). unfold st, persistence in *. lia.
        -- intros f. rewrite tot_app. fold s1. rewrite (tot_ext f s s1 l) by (intros b Hb; now apply Bo, Ic).
           f_equal. change (tot f s1 [c] = f (k_stamp s) 0). rewrite tot_cons. unfold st, nm. rewrite Bc. unfold tot. cbn [map list_sum fold_right u_stamp u_num]. lia.
  - rewrite (No eq_refl) in *. set (c := k_nbufs s) in *.
    assert (Zc : c = 0) by (destruct c as [|c'] eqn:Q; [reflexivity|]; destruct (proj2 (Al c') ltac:(lia))).
    set (s1 := let '(s0, c0) := new_buffer s (k_stamp s) None in with_head s0 c0).
    assert (Bc : k_bufs s1 c = mkCBuf (k_stamp s) c 0 (fun _ => zero_con)) by (unfold s1; cbn; fold c; now rewrite !upd_eq).
    exists [c], c. split; [|split; [reflexivity|split; [|split; [|split; [reflexivity|split]]]]].
    + constructor.
      * change (u_next (k_bufs s1 c) = c /\ True). rewrite Bc. auto.
      * repeat constructor. auto.
      * intros b. change (k_nbufs s1) with (S c). rewrite Zc. cbn. lia.
      * intros h' E. cbn in E. injection E as <-. now exists [].
      * discriminate.
      * repeat constructor.
      * intros b [<-|[]]. change (u_stamp (k_bufs s1 c) <= k_stamp s). rewrite Bc. apply le_n.
    + change (u_num (k_bufs s1 c) = 0). now rewrite Bc.
    + change (u_stamp (k_bufs s1 c) = k_stamp s). now rewrite Bc.
    + intros b [<-|[]] N. congruence.
    + right. split; [reflexivity|]. split; [intros b []|]. intros f. change (tot f s1 [c] = tot f s [] + f (k_stamp s) 0). rewrite tot_cons. unfold st, nm. rewrite Bc. unfold tot. cbn [map list_sum fold_right u_stamp u_num]. lia.
Qed.

(** ** counting *)
Definition cnt s l j := tot (fun x _ => if x =? j then 1 else 0) s l.
Definition fill s l := tot (fun x n => if x =? k_stamp s then n else 0) s l.
Lemma four s l : (forall b, In b l -> st s b <= k_stamp s /\ k_stamp s - st s b <= 3) ->
  length l <= cnt s l (k_stamp s) + cnt s l (k_stamp s - 1) + cnt s l (k_stamp s - 2) + cnt s l (k_stamp s - 3).
Proof.
  unfold cnt. induction l as [|b l IH]; intros E; [apply Nat.le_0_l|]. rewrite !tot_cons. cbn [length].
  specialize (IH (fun b Hb => E b (or_intror Hb))). destruct (E b (or_introl eq_refl)) as (A & B).
  set (x := st s b) in *. set (y := k_stamp s) in *.
  assert (Q : x = y \/ x = y - 1 \/ x = y - 2 \/ x = y - 3) by lia.
  assert (1 <= (if x =? y then 1 else 0) + (if x =? y - 1 then 1 else 0) + (if x =? y - 2 then 1 else 0) + (if x =? y - 3 then 1 else 0)); [|lia].
  destruct Q as [Q | [Q | [Q | Q]]]; rewrite Q, Nat.eqb_refl; lia.
Qed.
Definition full : nat := 1023.
Lemma fulls s l : (forall b, In b l -> st s b = k_stamp s -> full <= nm s b) -> full * cnt s l (k_stamp s) <= fill s l.
Proof.
  unfold cnt, fill. induction l as [|b l IH]; intros E; [apply le_n|]. rewrite !tot_cons.
  specialize (IH (fun b Hb => E b (or_intror Hb))). specialize (E b (or_introl eq_refl)).
  destruct (st s b =? k_stamp s) eqn:Q; [apply Nat.eqb_eq in Q; specialize (E Q)|]; lia.
Qed.

(** [M] buffers at most per step *)
Record few (M load : nat) s (l : list nat) : Prop := mkFew {
  w_ring : ringed s l;
  w_cnt : forall j, cnt s l j <= M;
  w_len : length l <= 4 * M;
  w_fill : fill s l = load;
  w_full : forall b h, k_head s = Some h -> In b l -> b <> h -> st s b = k_stamp s -> full <= nm s b }.

Lemma push_few M load s l : few M load s l -> cnt s l (k_stamp s) < M ->
  (forall b, In b l -> st s b = k_stamp s -> full <= nm s b) -> exists l', few M load (push_fresh s) l'.
Proof.
  intros [R Cn Le Fi Fu] Lt Full. destruct (push_ringed s l R) as (l' & h & R' & Hh & Nh & Sh & Ks & Oth & Cases). exists l'.
  assert (Cnt : forall j, cnt (push_fresh s) l' j <= M).
  { intros j. destruct Cases as [(t & It & Lt' & Ll & F)|(Ll & Rc & F)].
    - specialize (F (fun x _ => if x =? j then 1 else 0)). cbn beta in F. fold (cnt (push_fresh s) l' j) in F. fold (cnt s l j) in F.
      destruct (k_stamp s =? j) eqn:Q; [|specialize (Cn j); lia]. apply Nat.eqb_eq in Q. subst j. lia.
    - specialize (F (fun x _ => if x =? j then 1 else 0)). cbn beta in F. fold (cnt (push_fresh s) l' j) in F. fold (cnt s l j) in F.
      destruct (k_stamp s =? j) eqn:Q; [|specialize (Cn j); lia]. apply Nat.eqb_eq in Q. subst j. lia. }
  constructor.
  - exact R'.
  - exact Cnt.
  - destruct Cases as [(t & It & Lt' & Ll & F)|(Ll & Rc & F)]; [now rewrite Ll|]. rewrite Ll.
    pose proof (four s l (fun b Hb => conj (r_now s l R b Hb) (Rc b Hb))) as Q.
    pose proof (Cn (k_stamp s - 1)). pose proof (Cn (k_stamp s - 2)). pose proof (Cn (k_stamp s - 3)). lia.
  - unfold fill. rewrite Ks. destruct Cases as [(t & It & Lt' & Ll & F)|(Ll & Rc & F)];
      specialize (F (fun x n => if x =? k_stamp s then n else 0)); cbn beta in F.
    + rewrite Nat.eqb_refl in F. rewrite (proj2 (Nat.eqb_neq (st s t) (k_stamp s))) in F by lia. fold (fill s l) in F. lia.
    + rewrite Nat.eqb_refl in F. fold (fill s l) in F. lia.
  - intros b h' E Hb N S. rewrite Hh in E. injection E as <-. destruct (Oth b Hb N) as (Ib & Sb & Nb). rewrite Nb. apply Full; [exact Ib|].
    rewrite <- Sb, <- Ks. exact S.
Qed.

(** only the number of contacts of the head changes, by [d] *)
Definition bump s s' (d : nat) : Prop :=
  k_stamp s' = k_stamp s /\ k_nbufs s' = k_nbufs s /\ k_head s' = k_head s /\
  (forall c, st s' c = st s c /\ nxt s' c = nxt s c) /\
  (forall c, nm s' c = if match k_head s with Some h => c =? h | None => false end then nm s c + d else nm s c).
Lemma bump_refl s : bump s s 0.
Proof. repeat split. intros c. destruct (k_head s) as [h|]; [destruct (c =? h)|]; lia. Qed.
Lemma ringed_bump s s' d l : bump s s' d -> ringed s l -> ringed s' l.
Proof.
  intros (A & B & C & D & E) [Lk Nd Al So No Sr Nw]. constructor.
  - eapply linked_ext; [|exact Lk]. intros b _. apply D.
  - exact Nd.
  - intros b. rewrite B. apply Al.
  - rewrite C. exact So.
  - rewrite C. exact No.
  - eapply sorted_ext; [|exact Sr]. intros a b _ _. destruct (D a) as (-> & _). destruct (D b) as (-> & _). auto.
  - intros b Hb. destruct (D b) as (-> & _). rewrite A. now apply Nw.
Qed.
Lemma bump_few M load s s' d l h : k_head s = Some h -> st s h = k_stamp s -> few M load s l -> bump s s' d -> few M (load + d) s' l.
Proof.
  intros Hh Sh [R Cn Le Fi Fu] Bm. pose proof Bm as (A & B & C & D & E). rewrite Hh in E. constructor.
  - now apply (ringed_bump s s' d).
  - intros j. rewrite <- (Cn j). apply Nat.eq_le_incl. unfold cnt, tot. f_equal. apply map_ext. intros b. now destruct (D b) as (-> & _).
  - exact Le.
  - rewrite <- Fi. unfold fill. rewrite A. destruct (r_some s l R h Hh) as (l0 & ->). rewrite !tot_app.
    rewrite (tot_ext _ s s' l0).
    + rewrite !tot_cons. destruct (D h) as (-> & _). rewrite Sh, Nat.eqb_refl, E, Nat.eqb_refl. unfold tot. cbn. lia.
    + intros b Hb. split; [apply D|]. rewrite E. destruct (b =? h) eqn:Q; [|reflexivity]. apply Nat.eqb_eq in Q. subst b.
      pose proof (r_nodup s _ R) as Nd. apply NoDup_remove_2 in Nd. rewrite app_nil_r in Nd. contradiction.
  - intros b h' E' Hb N S. rewrite C, Hh in E'. injection E' as <-. rewrite E. rewrite (proj2 (Nat.eqb_neq b h) N).
    apply (Fu b h Hh Hb N). destruct (D b) as (<- & _). now rewrite <- A.
Qed.

(** the head is full when an array does not fit *)
Lemma get_few M load s l s1 h n : few M load s l -> current s -> load < full * M -> get_array s = Some (s1, h, n) -> exists l', few M load s1 l' /\ k_head s1 = Some h /\ nm s1 h = n /\ st s1 h = k_stamp s1 /\ k_stamp s1 = k_stamp s.
Proof.
  intros F C Lt. unfold get_array. destruct (k_head s) as [h0|] eqn:Hh; [|discriminate].
  destruct (buffer_size <? u_num (k_bufs s h0) + max_contacts) eqn:Big.
  - apply Nat.ltb_lt in Big. pose proof F as [R Cn Le Fi Fu].
    assert (Full : forall b, In b l -> st s b = k_stamp s -> full <= nm s b).
    { intros b Hb S. destruct (Nat.eq_dec b h0) as [->|N]; [unfold nm, full, buffer_size, max_contacts in *; lia|]. now apply (Fu b h0). }
    pose proof (fulls s l Full) as Q. rewrite Fi in Q.
    assert (Cl : cnt s l (k_stamp s) < M) by nia.
    destruct (push_few M load s l F Cl Full) as (l' & F'). destruct (push_ringed s l R) as (l2 & h2 & _ & Hh2 & Nh2 & Sh2 & Ks2 & _).
    rewrite Hh2. unfold nm in Nh2. rewrite Nh2. destruct (0 + max_contacts <=? buffer_size); [|discriminate]. intros E. injection E as <- <- <-.
    exists l'. split; [exact F'|]. split; [exact Hh2|]. split; [exact Nh2|]. split; [now rewrite Ks2|exact Ks2].
  - rewrite Hh. destruct (_ <=? _); [|discriminate]. intros E. injection E as <- <- <-. exists l. split; [exact F|]. split; [exact Hh|]. split; [reflexivity|]. split; [now apply C|reflexivity].
Qed.
(** ** the events *)
Lemma bump_trans s s1 s2 d d' : bump s s1 d -> bump s1 s2 d' -> bump s s2 (d + d').
Proof.
  intros (A & B & C & D & E) (A' & B' & C' & D' & E'). split; [congruence|]. split; [congruence|]. split; [congruence|]. split.
  - intros c. destruct (D c) as (<- & <-). apply D'.
  - intros c. rewrite E', E, C. destruct (k_head s) as [h|]; [destruct (c =? h)|]; lia.
Qed.
Lemma set_slot_bump s b i c : bump s (set_slot s b i c) 0.
Proof.
  split; [reflexivity|]. split; [reflexivity|]. split; [reflexivity|].
  assert (Q : forall d, st (set_slot s b i c) d = st s d /\ nxt (set_slot s b i c) d = nxt s d /\ nm (set_slot s b i c) d = nm s d).
  { intros d. unfold st, nxt, nm, set_slot. cbn. unfold upd. destruct (d =? b) eqn:E; [apply Nat.eqb_eq in E; subst d|]; auto. }
  split; intros d; destruct (Q d) as (Q1 & Q2 & Q3); [now split|]. rewrite Q3. destruct (k_head s) as [h|]; [destruct (d =? h)|]; lia.
Qed.
Lemma slots_bump l : forall s b i, bump s (set_slots s b i l) 0.
Proof. induction l as [|c l IH]; intros s b i; [apply bump_refl|]. cbn [set_slots]. eapply (bump_trans _ _ _ 0 0); [apply set_slot_bump|apply IH]. Qed.
Lemma raw_bump l : forall s b i, bump s (push_raw s b i l) 0.
Proof. induction l as [|[[p q] h] l IH]; intros s b i; [apply bump_refl|]. cbn [push_raw]. eapply (bump_trans _ _ _ 0 0); [apply set_slot_bump|apply IH]. Qed.
Lemma loop_bump n : forall s x pa pb b i, bump s (update_loop s x pa pb b i n) 0.
Proof. induction n as [|n IH]; intros s x pa pb b i; [apply bump_refl|]. cbn [update_loop]. eapply (bump_trans _ _ _ 0 0); [apply set_slot_bump|apply IH]. Qed.
Lemma push_bump s n : bump s (push_contacts s n) n.
Proof.
  unfold push_contacts, set_num. destruct (k_head s) as [h|] eqn:Hh.
  - split; [reflexivity|]. split; [reflexivity|]. split; [reflexivity|]. rewrite Hh. split; intros c; unfold st, nxt, nm; cbn; unfold upd;
      (destruct (c =? h) eqn:E; [apply Nat.eqb_eq in E; subst c|]); auto.
  - split; [reflexivity|]. split; [reflexivity|]. split; [reflexivity|]. rewrite Hh. split; [intros c; now split|reflexivity].
Qed.
Lemma pop_bump s s' n : bump s s' n -> bump s (pop_contacts s' n) 0.
Proof.
  intros (A & B & C & D & E). unfold pop_contacts, set_num. rewrite C. destruct (k_head s) as [h|] eqn:Hh.
  - split; [exact A|]. split; [exact B|]. split; [cbn; rewrite C; now rewrite Hh|]. rewrite Hh.
    split; intros c; unfold st, nxt, nm in *; cbn; unfold upd; specialize (D c); specialize (E c);
      (destruct (c =? h) eqn:Q; [apply Nat.eqb_eq in Q; subst c|]); auto. cbn. lia.
  - split; [exact A|]. split; [exact B|]. split; [now rewrite Hh|]. rewrite Hh. split; [exact D|exact E].
Qed.
Lemma arbs_bump s s' f d : bump s s' d -> bump s (with_arbs s' f) d.
Proof. intros B. exact B. Qed.

Lemma event_few M load s k e s' l : inv s -> refines s k -> sane k e -> few M load s l -> 0 < M ->
  (match e with Begin => True | _ => load < full * M end) ->
  cs_event s e = Some s' -> exists l', few M (match e with Begin => 0 | _ => load + kept k e end) s' l'.
Proof.
  intros J R S F P Lt E. pose proof (proj1 (proj2 J)) as Cu.
  assert (Keep : forall s2, bump s s2 0 -> exists l', few M (load + 0) s2 l').
  { intros s2 B. exists l. destruct (k_head s) as [h|] eqn:Hh.
    - apply (bump_few M load s s2 0 l h Hh (Cu h Hh) F B).
    - pose proof F as [Rg Cn Le Fi Fu]. pose proof (r_none s l Rg Hh) as ->. constructor.
      + now apply (ringed_bump s s2 0).
      + intros j. apply Nat.le_0_l.
      + apply Nat.le_0_l.
      + rewrite <- Fi. reflexivity.
      + intros b h _ []. }
  destruct e as [|a pa pb found ok|a|a|a c|a|idle]; cbn [cs_event kept] in *.
  - injection E as <-. unfold cs_tick. set (s1 := mkCS _ _ _ _ _). pose proof F as [Rg Cn Le Fi Fu].
    assert (Old : forall b, In b l -> st s1 b <> k_stamp s1).
    { intros b Hb. pose proof (r_now s l Rg b Hb) as Q. change (st s1 b) with (st s b). cbn. lia. }
    assert (Zc : forall f : nat -> nat, tot (fun x n => if x =? k_stamp s1 then f n else 0) s1 l = 0).
    { intros f. clear - Old. induction l as [|b l0 IH]; [reflexivity|]. rewrite tot_cons. rewrite (proj2 (Nat.eqb_neq _ _) (Old b (or_introl eq_refl))).
      rewrite IH; [reflexivity|]. intros c Hc. apply Old. now right. }
    apply (push_few M 0 s1 l).
    + constructor.
      * destruct Rg as [Lk Nd Al So No Sr Nw]. constructor; try assumption. intros b Hb. specialize (Nw b Hb). change (st s1 b) with (st s b). cbn. lia.
      * exact Cn.
      * exact Le.
      * apply (Zc (fun n => n)).
      * intros b h _ Hb _ Q. now apply Old in Q.
    + unfold cnt. rewrite (Zc (fun _ => 1)). exact P.
    + intros b Hb Q. now apply Old in Q.
  - destruct S as (S1 & S2). unfold cs_collide in E. destruct (get_array s) as [[[s1 h] n]|] eqn:G; [|discriminate].
    unfold Raw in E. destruct (max_contacts <? length found) eqn:L2; [discriminate E|].
    destruct (get_few M load s l s1 h n F Cu Lt G) as (l1 & F1 & Hh1 & Nh1 & Sh1 & Ks1).
    pose proof (raw_bump found s1 h n) as B1. set (s2 := push_raw s1 h n found) in *.
    assert (Res : bump s1 s' (if ok then length found else 0)).
    { destruct (length found) as [|m] eqn:Ln.
      - injection E as <-. destruct ok; exact B1.
      - rewrite <- Ln in *. pose proof (push_bump s2 (length found)) as B2. set (s3 := push_contacts s2 (length found)) in *.
        destruct ok.
        + injection E as <-. apply arbs_bump. replace (length found) with (0 + (length found + 0)) by lia.
          eapply bump_trans; [exact B1|]. eapply bump_trans; [exact B2|]. apply loop_bump.
        + injection E as <-. apply arbs_bump. apply pop_bump. replace (length found) with (0 + (length found + 0)) by lia.
          eapply bump_trans; [exact B1|]. eapply bump_trans; [exact B2|]. rewrite Nat.add_0_r. apply loop_bump. }
    exists l1. apply (bump_few M load s1 s' _ l1 h Hh1 Sh1 F1) in Res. destruct ok; exact Res.
  - unfold cs_restore in E. pose proof (proj2 R a) as Ag. unfold agrees in Ag. unfold contacts_of.
    destruct (k_arbs s a) as [x|] eqn:X; destruct (bk_note k a) as [nt|] eqn:Nt; try contradiction.
    + destruct (get_array s) as [[[s1 h] n]|] eqn:G; [|discriminate].
      destruct (get_few M load s l s1 h n F Cu Lt G) as (l1 & F1 & Hh1 & Nh1 & Sh1 & Ks1).
      destruct (max_contacts <? x_count x); [discriminate|]. injection E as <-.
      rewrite <- (F2_len _ _ _ (proj2 (proj2 Ag))). rewrite (read_len s a x (proj1 J) X). exists l1.
      apply (bump_few M load s1 _ _ l1 h Hh1 Sh1 F1). apply arbs_bump. exact (bump_trans _ _ _ 0 (x_count x) (slots_bump _ s1 h n) (push_bump _ (x_count x))).
    + injection E as <-. apply Keep. apply bump_refl.
  - injection E as <-. apply Keep. unfold cs_store. destruct (k_arbs s a); [apply arbs_bump|]; apply bump_refl.
  - injection E as <-. apply Keep. unfold cs_write. destruct (k_arbs s a) as [x|]; [|apply bump_refl].
    destruct (length c =? x_count x); [|apply bump_refl]. destruct (x_mem x); [apply bump_refl|apply slots_bump|apply arbs_bump, bump_refl].
  - injection E as <-. apply Keep. exact (bump_refl s).
  - injection E as <-. apply Keep. exact (bump_refl s).
Qed.

Lemma ringed_len s l : ringed s l -> length l = k_nbufs s.
Proof.
  intros R. apply Nat.le_antisymm.
  - rewrite <- (seq_length (k_nbufs s) 0). apply NoDup_incl_length; [apply R|]. intros b Hb. apply in_seq. apply (r_all s l R) in Hb. lia.
  - rewrite <- (seq_length (k_nbufs s) 0) at 1. apply NoDup_incl_length; [apply seq_NoDup|]. intros b Hb. apply in_seq in Hb. apply (r_all s l R). lia.
Qed.
Lemma run_few es m : forall load s k l, inv s -> refines s k -> holds_along sane k es -> holds_along timely k es ->
  light m load k es -> load <= m -> few (m / full + 1) load s l ->
  exists s2, cs_run es s = Some s2 /\ k_nbufs s2 <= 4 * (m / full + 1) /\ exists l', ringed s2 l'.
Proof.
  induction es as [|e es IH]; intros load s k l J R S Ti Li Lm F.
  { exists s. split; [reflexivity|]. split; [rewrite <- (ringed_len s l); apply F|]. exists l. apply F. }
  destruct S as (S & S'). destruct Ti as (Ti & Ti'). destruct Li as (Li & Li'). destruct (event_ok s k e J R S Ti) as (s1 & E & J1 & R1).
  assert (Lt : load < full * (m / full + 1)).
  { pose proof (Nat.div_mod m full ltac:(discriminate)). pose proof (Nat.mod_upper_bound m full ltac:(discriminate)). nia. }
  destruct (event_few (m / full + 1) load s k e s1 l J R S F ltac:(lia) ltac:(destruct e; auto) E) as (l1 & F1).
  cbn [cs_run]. rewrite E. apply (IH _ s1 (happen k e) l1 J1 R1 S' Ti' Li' Li F1).
Qed.
End Pf.
