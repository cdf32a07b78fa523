(** ConvexHull's arrays: what the in-place algorithm computes, for every arithmetic. *)
From Coq Require Import List Arith Bool Lia Permutation.
From Verif Require Import Num.
From Verif.Model Require Import Vector Hull.
Import ListNotations.
Local Open Scope nat_scope.

Section HullPf.
Context {T : Type} `{Num T}.
Notation V := (Vec T).

(** ** arrays *)
Lemma aset_app (p q : list V) x v : aset (p ++ x :: q) (length p) v = Some (p ++ v :: q).
Proof. induction p as [|y p IH]; cbn [app length aset]; [reflexivity|]. now rewrite IH. Qed.
Lemma nth_app (p q : list V) x : nth_error (p ++ x :: q) (length p) = Some x.
Proof. rewrite nth_error_app2, Nat.sub_diag by lia. reflexivity. Qed.
Lemma aswap_far (p m q : list V) x y : aswap (p ++ x :: m ++ y :: q) (length p) (length p + S (length m)) = Some (p ++ y :: m ++ x :: q).
Proof.
  unfold aswap. rewrite nth_app. replace (p ++ x :: m ++ y :: q) with ((p ++ x :: m) ++ y :: q) by now rewrite <- app_assoc. replace (length p + S (length m)) with (length (p ++ x :: m)) by (rewrite app_length; reflexivity). rewrite nth_app.
  rewrite <- app_assoc. cbn [app]. rewrite aset_app. replace (p ++ y :: m ++ y :: q) with ((p ++ y :: m) ++ y :: q) by now rewrite <- app_assoc. replace (length (p ++ x :: m)) with (length (p ++ y :: m)) by (rewrite !app_length; reflexivity). rewrite aset_app, <- app_assoc. reflexivity.
Qed.
Lemma aswap_near (p q : list V) x : aswap (p ++ x :: q) (length p) (length p) = Some (p ++ x :: q).
Proof. unfold aswap. now rewrite nth_app, !aset_app. Qed.
Lemma aswap_back (p m q : list V) x y : aswap (p ++ x :: m ++ y :: q) (length p + S (length m)) (length p) = Some (p ++ y :: m ++ x :: q).
Proof.
  unfold aswap. rewrite nth_app. replace (p ++ x :: m ++ y :: q) with ((p ++ x :: m) ++ y :: q) by now rewrite <- app_assoc. replace (length p + S (length m)) with (length (p ++ x :: m)) by (rewrite app_length; reflexivity). rewrite nth_app.
  rewrite aset_app, <- app_assoc. cbn [app]. now rewrite aset_app.
Qed.
Lemma cut_at (l : list V) i : i < length l -> exists p x q, l = p ++ x :: q /\ length p = i.
Proof.
  intros L. destruct (nth_error l i) as [x|] eqn:E; [|apply nth_error_None in E; lia]. apply nth_error_split in E as (p & q & -> & <-). eauto.
Qed.
Lemma aswap_perm (l : list V) i j : i < length l -> j < length l -> exists l', aswap l i j = Some l' /\ Permutation l l' /\ nth_error l' i = nth_error l j /\ nth_error l' j = nth_error l i /\
  forall k, k <> i -> k <> j -> nth_error l' k = nth_error l k.
Proof.
  intros Li Lj.
  assert (G : forall i j (l : list V), i < j -> j < length l -> exists p x m y q, l = p ++ x :: m ++ y :: q /\ i = length p /\ j = length p + S (length m)).
  { clear. intros i j l Hij Hj. destruct (cut_at l i) as (p & x & q & -> & <-); [lia|]. rewrite app_length in Hj. cbn [length] in Hj. destruct (cut_at q (j - length p - 1)) as (m & y & q' & -> & Lm); [lia|]. exists p, x, m, y, q'. split; [reflexivity|]. split; [reflexivity|]. lia. }
  assert (NE : forall (p : list V) x m y q, nth_error (p ++ x :: m ++ y :: q) (length p) = Some x /\ nth_error (p ++ x :: m ++ y :: q) (length p + S (length m)) = Some y).
  { clear. intros. split; [apply nth_app|]. rewrite nth_error_app2 by lia. replace (length p + S (length m) - length p) with (S (length m)) by lia. cbn [nth_error]. apply nth_app. }
  assert (OT : forall (p : list V) x m y q x' y' k, k <> length p -> k <> length p + S (length m) -> nth_error (p ++ x :: m ++ y :: q) k = nth_error (p ++ x' :: m ++ y' :: q) k).
  { clear. intros. destruct (Nat.lt_ge_cases k (length p)); [rewrite !nth_error_app1 by auto; reflexivity|]. rewrite !nth_error_app2 by lia. destruct (k - length p) as [|k'] eqn:E; [lia|]. cbn [nth_error]. destruct (Nat.lt_ge_cases k' (length m)); [rewrite !nth_error_app1 by auto; reflexivity|]. rewrite !nth_error_app2 by lia. destruct (k' - length m) eqn:E2; [lia|]. reflexivity. }
  assert (PM : forall (p : list V) x m y q, Permutation (p ++ x :: m ++ y :: q) (p ++ y :: m ++ x :: q)).
  { clear. intros. apply Permutation_app_head. rewrite <- !Permutation_middle. apply perm_swap. }
  destruct (Nat.lt_trichotomy i j) as [L|[->|L]].
  - destruct (G i j l L Lj) as (p & x & m & y & q & -> & -> & ->). rewrite aswap_far. destruct (NE p x m y q) as [-> ->]. destruct (NE p y m x q) as [E1 E2]. eexists. split; [reflexivity|]. split; [apply PM|]. split; [auto|]. split; [auto|]. intros; now apply OT.
  - destruct (cut_at l j Lj) as (p & x & q & -> & <-). rewrite aswap_near. eexists. split; [reflexivity|]. auto.
  - destruct (G j i l L Li) as (p & x & m & y & q & -> & -> & ->). rewrite aswap_back. destruct (NE p x m y q) as [-> ->]. destruct (NE p y m x q) as [E1 E2]. eexists. split; [reflexivity|]. split; [apply PM|]. split; [auto|]. split; [auto|]. intros; now apply OT.
Qed.

(** ** the partition *)
Definition out (tol : T) (a b v : V) : bool := nltb (side_tol tol a b) (side a b v).
Definition track (a b : V) (st : T * nat * nat) (v : V) : T * nat * nat :=
  let '(mx, pv, i) := st in if nltb mx (side a b v) then (side a b v, i, S i) else (mx, pv, S i).
(** the point chosen among the points kept, in the order they were kept *)
Definition picked (a b : V) (l : list V) (m : V) : Prop := nth_error l (snd (fst (fold_left (track a b) l (nzero, 0, 0)))) = Some m.
Lemma fold_snoc {A B} (f : A -> B -> A) l x s : fold_left f (l ++ [x]) s = f (fold_left f l s) x. Proof. now rewrite fold_left_app. Qed.
Lemma track_i a b l : forall mx pv i, snd (fold_left (track a b) l (mx, pv, i)) = i + length l.
Proof. induction l as [|v l IH]; intros mx pv i; cbn [fold_left length]; [cbn; lia|]. unfold track at 2. destruct (nltb mx (side a b v)); rewrite IH; lia. Qed.
Lemma part_loop_spec tol a b pre post : forall n acc rest rej mx pv, length rest = n ->
  fold_left (track a b) acc (nzero, 0, 0) = (mx, pv, length acc) ->
  exists l r, Permutation rest (l ++ r) /\ Forall (fun v => out tol a b v = true) l /\ Forall (fun v => out tol a b v = false) r /\
    part_loop n (pre ++ acc ++ rest ++ rej ++ post) (length pre) a b (side_tol tol a b) (length acc) mx pv =
      Some (pre ++ (acc ++ l) ++ r ++ rej ++ post, length (acc ++ l), snd (fst (fold_left (track a b) (acc ++ l) (nzero, 0, 0)))).
Proof.
  induction n as [|n IH]; intros acc rest rej mx pv L TR; destruct rest as [|v rest]; try discriminate; cbn [part_loop].
  - exists [], []. cbn [app]. rewrite app_nil_r, TR. cbn [fst snd]. split; [constructor|]. auto.
  - injection L as L. replace (pre ++ acc ++ (v :: rest) ++ rej ++ post) with ((pre ++ acc) ++ v :: rest ++ rej ++ post) by now rewrite <- !app_assoc. rewrite <- app_length, nth_app. destruct (nltb (side_tol tol a b) (side a b v)) eqn:O.
    + set (mx' := if nltb mx (side a b v) then side a b v else mx). set (pv' := if nltb mx (side a b v) then length acc else pv).
      destruct (IH (acc ++ [v]) rest rej mx' pv' L) as (l & r & P & FL & FR & E).
      { rewrite fold_snoc, TR, app_length. cbn [length]. unfold track, mx', pv'. destruct (nltb mx (side a b v)); (repeat f_equal; lia). }
      exists (v :: l), r. split; [cbn [app]; now constructor|]. split; [constructor; auto|]. split; [auto|].
      replace (acc ++ v :: l) with ((acc ++ [v]) ++ l) by now rewrite <- app_assoc. rewrite <- E.
      replace (pre ++ (acc ++ [v]) ++ rest ++ rej ++ post) with ((pre ++ acc) ++ v :: rest ++ rej ++ post) by now rewrite <- !app_assoc. replace (length (acc ++ [v])) with (S (length acc)) by (rewrite app_length; cbn; lia). unfold mx', pv'. destruct (nltb mx (side a b v)); reflexivity.
    + replace (length pre + (length acc + n)) with (length (pre ++ acc) + n) by (rewrite app_length; lia).
      assert (SW : exists rest', Permutation rest rest' /\ length rest' = n /\ aswap ((pre ++ acc) ++ v :: rest ++ rej ++ post) (length (pre ++ acc)) (length (pre ++ acc) + n) = Some (pre ++ acc ++ rest' ++ (v :: rej) ++ post)).
      { destruct rest as [|w rest] using rev_ind.
        - cbn [length] in L. subst n. rewrite Nat.add_0_r, aswap_near. exists []. split; [constructor|]. split; [reflexivity|]. now rewrite <- app_assoc.
        - clear IHrest. rewrite app_length in L. cbn [length] in L. exists (w :: rest). split; [symmetry; apply Permutation_cons_append|]. split; [cbn [length]; lia|]. replace n with (S (length rest)) by lia. rewrite <- (app_assoc rest [w]). cbn [app]. rewrite aswap_far, <- app_assoc. reflexivity. }
      destruct SW as (rest' & P' & L' & ->). destruct (IH acc rest' (v :: rej) mx pv L' TR) as (l & r & P & FL & FR & E). exists l, (r ++ [v]).
      split; [rewrite P', P, Permutation_cons_append, <- app_assoc; reflexivity|]. split; [auto|]. split; [apply Forall_app; auto|]. rewrite E. do 4 f_equal. now rewrite <- !app_assoc.
Qed.
Lemma picked_ex a b l : l <> [] -> exists m, picked a b l m.
Proof.
  intros Hn. unfold picked. assert (G : forall l mx pv i, pv < i + length l -> snd (fst (fold_left (track a b) l (mx, pv, i))) < i + length l).
  { clear. induction l as [|v l IH]; intros mx pv i L; cbn [fold_left length] in *; [cbn [fst snd]; lia|]. rewrite <- Nat.add_succ_comm in *. unfold track at 2. destruct (nltb mx (side a b v)); apply IH; lia. }
  destruct (nth_error l (snd (fst (fold_left (track a b) l (nzero, 0, 0))))) eqn:E; [eauto|]. apply nth_error_None in E. specialize (G l nzero 0 0). destruct l; [contradiction|]. cbn [length] in *. lia.
Qed.
Lemma partition_spec tol a b pre seg post : exists l0 l r,
  partition (pre ++ seg ++ post) (length pre) (length seg) a b tol = Some (pre ++ l ++ r ++ post, length l) /\ Permutation seg (l ++ r) /\ Permutation l0 l /\
  Forall (fun v => out tol a b v = true) l /\ Forall (fun v => out tol a b v = false) r /\
  match l with [] => True | m :: _ => picked a b l0 m end.
Proof.
  unfold partition. destruct seg as [|v seg]; [exists [], [], []; cbn [app length]; repeat split; auto|]. set (sg := v :: seg). change (match length sg with 0 => _ | S _ => ?x end) with x.
  destruct (part_loop_spec tol a b pre post (length sg) [] sg [] nzero 0 eq_refl eq_refl) as (l & r & P & FL & FR & E). cbn [app length] in E. rewrite E.
  assert (NE : forall w l', l = w :: l' -> exists m, picked a b l m) by (intros w l' ->; apply picked_ex; discriminate).
  set (pv := snd (fst (fold_left (track a b) l (nzero, 0, 0)))) in *. assert (PV : forall m, picked a b l m -> nth_error l pv = Some m) by auto. clearbody pv.
  destruct pv as [|pv].
  - exists l, l, r. split; [reflexivity|]. split; [exact P|]. split; [reflexivity|]. split; [auto|]. split; [auto|]. destruct l as [|w l]; [auto|]. destruct (NE w l eq_refl) as [m M]. specialize (PV m M). injection PV as ->. exact M.
  - destruct l as [|w l].
    + cbn [app length] in *. exfalso. pose proof (part_loop_spec tol a b pre post (length sg) [] sg [] nzero 0 eq_refl eq_refl) as _. revert E.
      assert (GG : forall n arr head mx pvt arr' h' pv', part_loop n arr (length pre) a b (side_tol tol a b) head mx pvt = Some (arr', h', pv') -> head <= h' /\ (pv' = pvt \/ pv' < h')).
      { clear. induction n as [|n IH]; intros arr head mx pvt arr' h' pv'; cbn [part_loop]; [intros [= <- <- <-]; split; auto|]. destruct (nth_error arr _); [|discriminate]. destruct (nltb _ _).
        - destruct (nltb mx _); intros E; apply IH in E; destruct E as [E1 [E2|E2]]; split; try lia; subst; lia.
        - destruct (aswap _ _ _); [|discriminate]. apply IH. }
      intros E. apply GG in E. lia.
    + destruct (NE w l eq_refl) as [m M]. specialize (PV m M). cbn [nth_error] in PV. apply nth_error_split in PV as (p & q & -> & <-).
      cbn [app]. rewrite <- app_assoc. cbn [app]. rewrite aswap_far. exists (w :: p ++ m :: q), (m :: p ++ w :: q), r.
      assert (PM : Permutation (w :: p ++ m :: q) (m :: p ++ w :: q)) by (rewrite <- !Permutation_middle; apply perm_swap).
      split; [f_equal; f_equal; [cbn [app]; rewrite <- app_assoc; reflexivity|cbn [length]; rewrite !app_length; reflexivity]|]. split; [rewrite <- PM; exact P|]. split; [exact PM|]. split; [eapply Permutation_Forall; eauto|]. split; auto.
Qed.

(** ** the recursion *)
Inductive qh (tol : T) : list V -> V -> V -> V -> list V -> Prop :=
| qh_nil a p b : qh tol [] a p b [p]
| qh_step S a p b L N R D cl cr : Permutation S (L ++ N) -> Permutation N (R ++ D) ->
    Forall (fun v => out tol a p v = true) L -> Forall (fun v => out tol a p v = false) N -> Forall (fun v => out tol p b v = true) R -> Forall (fun v => out tol p b v = false) D ->
    sub tol L a p cl -> sub tol R p b cr -> qh tol S a p b (cl ++ p :: cr)
with sub (tol : T) : list V -> V -> V -> list V -> Prop :=
| sub_nil a b : sub tol [] a b []
| sub_cons L0 m L a b c : Permutation L0 (m :: L) -> picked a b L0 m -> qh tol L a m b c -> sub tol (m :: L) a b c.
Scheme qh_ind2 := Induction for qh Sort Prop with sub_ind2 := Induction for sub Sort Prop.
Combined Scheme qh_sub_ind from qh_ind2, sub_ind2.
Lemma qh_len tol : (forall S a p b c, qh tol S a p b c -> length c <= 1 + length S) /\ (forall S a b c, sub tol S a b c -> length c <= length S).
Proof.
  apply (qh_sub_ind tol (fun S a p b c _ => length c <= 1 + length S) (fun S a b c _ => length c <= length S)); cbn [length]; auto.
  intros S a p b L N R D cl cr P1 P2 _ _ _ _ _ I1 _ I2. apply Permutation_length in P1, P2. rewrite app_length in *. cbn [length]. lia.
Qed.
Lemma qh_incl tol : (forall S a p b c, qh tol S a p b c -> incl c (p :: S)) /\ (forall S a b c, sub tol S a b c -> incl c S).
Proof.
  apply (qh_sub_ind tol (fun S a p b c _ => incl c (p :: S)) (fun S a b c _ => incl c S)); auto using incl_refl, incl_nil_l.
  intros S a p b L N R D cl cr P1 P2 _ _ _ _ _ I1 _ I2 x Hx. apply in_app_iff in Hx as [Hx|[->|Hx]]; [right|left; reflexivity|right].
  - eapply Permutation_in; [symmetry; exact P1|]. apply in_app_iff. auto.
  - eapply Permutation_in; [symmetry; exact P1|]. apply in_app_iff. right. eapply Permutation_in; [symmetry; exact P2|]. apply in_app_iff. auto.
Qed.
Lemma reduce_spec tol : forall fuel pre mid seg post a p b, length seg < fuel -> mid <> [] ->
  exists chain junk, reduce fuel tol (pre ++ mid ++ seg ++ post) (length pre + length mid) (length seg) a p b (length pre) = Some (pre ++ chain ++ junk ++ post, length chain) /\
    qh tol seg a p b chain /\ length chain + length junk = length mid + length seg.
Proof.
  induction fuel as [|fuel IH]; intros pre mid seg post a p b Lf Hm; [lia|]. cbn [reduce]. destruct seg as [|v seg].
  - destruct mid as [|x mid]; [contradiction|]. cbn [app length]. rewrite aset_app. exists [p], mid. cbn [app length]. split; [reflexivity|]. split; [constructor|lia].
  - set (sg := v :: seg) in *. change (match length sg with 0 => _ | S _ => ?x end) with x.
    replace (pre ++ mid ++ sg ++ post) with ((pre ++ mid) ++ sg ++ post) by now rewrite <- app_assoc. rewrite <- app_length.
    destruct (partition_spec tol a p (pre ++ mid) sg post) as (L0 & L & N & -> & PS & PL & FL & FN & PK).
    assert (LEFT : exists cl junk, (match length L with 0 => Some ((pre ++ mid) ++ L ++ N ++ post, 0) | S l => match nth_error ((pre ++ mid) ++ L ++ N ++ post) (length (pre ++ mid)) with Some w => reduce fuel tol ((pre ++ mid) ++ L ++ N ++ post) (length (pre ++ mid) + 1) l a w p (length pre) | None => None end end)
      = Some (pre ++ cl ++ junk ++ N ++ post, length cl) /\ sub tol L a p cl /\ length cl + length junk = length mid + length L).
    { destruct L as [|m L]; cbn [length].
      - exists [], mid. cbn [app length]. split; [now rewrite <- app_assoc|]. split; [constructor|lia].
      - cbn [app]. rewrite nth_app. assert (LL : length L < fuel) by (apply Permutation_length in PS; rewrite app_length in PS; cbn [length] in PS; lia).
        destruct (IH pre (mid ++ [m]) L (N ++ post) a m p LL) as (cl & junk & E & Q & LN); [destruct mid; discriminate|]. exists cl, junk. split.
        { rewrite <- E. f_equal; [rewrite <- !app_assoc; reflexivity|rewrite !app_length; cbn [length]; lia]. }
        split; [econstructor; eauto|]. rewrite app_length in LN. cbn [length] in *. lia. }
    destruct LEFT as (cl & junk & -> & SL & LN). assert (CL := proj2 (qh_len tol) _ _ _ _ SL). destruct junk as [|j junk]; [destruct mid; [contradiction|cbn [length] in *; lia]|].
    replace (pre ++ cl ++ (j :: junk) ++ N ++ post) with ((pre ++ cl) ++ j :: junk ++ N ++ post) by now rewrite <- app_assoc. rewrite <- app_length, aset_app.
    replace ((pre ++ cl) ++ p :: junk ++ N ++ post) with (((pre ++ cl) ++ p :: junk) ++ N ++ post) by now rewrite <- !app_assoc.
    assert (LS : length sg = length L + length N) by (apply Permutation_length in PS; now rewrite app_length in PS). replace (length sg - length L) with (length N) by lia.
    replace (length (pre ++ mid) + length L) with (length ((pre ++ cl) ++ p :: junk)) by (rewrite !app_length; cbn [length] in *; lia).
    destruct (partition_spec tol p b ((pre ++ cl) ++ p :: junk) N post) as (R0 & R & D & -> & PN & PR & FR & FD & PK2).
    destruct R as [|m R]; cbn [length].
    + exists (cl ++ [p]), (junk ++ D). split; [|split].
      * f_equal. f_equal; [cbn [app]; now rewrite <- !app_assoc|rewrite app_length; cbn; lia].
      * eapply qh_step with (L := L) (N := N) (R := []) (D := D); eauto. constructor.
      * apply Permutation_length in PN. cbn [app] in PN. rewrite !app_length. cbn [length] in *. lia.
    + cbn [app]. rewrite nth_app. assert (LR : length R < fuel) by (apply Permutation_length in PN; rewrite app_length in PN; cbn [length] in *; lia).
      destruct (IH (pre ++ cl ++ [p]) (junk ++ [m]) R (D ++ post) p m b LR) as (cr & junk2 & E & Q & LN2); [destruct junk; discriminate|].
      replace (reduce fuel tol (((pre ++ cl) ++ p :: junk) ++ m :: R ++ D ++ post) (length ((pre ++ cl) ++ p :: junk) + 1) (length R) p m b (length pre + S (length cl)))
        with (Some ((pre ++ cl ++ [p]) ++ cr ++ junk2 ++ D ++ post, length cr)).
      2:{ rewrite <- E. f_equal; [rewrite <- !app_assoc; cbn [app]; rewrite <- ?app_assoc; reflexivity|rewrite !app_length; cbn [length]; lia|rewrite !app_length; cbn [length]; lia]. }
      exists (cl ++ p :: cr), (junk2 ++ D). split; [|split].
      * f_equal. f_equal; [rewrite <- !app_assoc; cbn [app]; reflexivity|rewrite app_length; cbn [length]; lia].
      * eapply qh_step with (L := L) (N := N) (R := m :: R) (D := D); eauto. econstructor; eauto.
      * apply Permutation_length in PN. rewrite !app_length in *. cbn [length] in *. lia.
Qed.

(** ** the ends *)
Lemma loop_bound l : forall i mn mx st en, st < i -> en < i -> let (s, e) := loop_indexes l i mn mx st en in s < i + length l /\ e < i + length l.
Proof.
  induction l as [|v l IH]; intros i mn mx st en Hs He; cbn [loop_indexes length]; [lia|]. rewrite <- Nat.add_succ_comm.
  destruct (vlt v mn); [apply IH; lia|]. destruct (vlt mx v); apply IH; lia.
Qed.
Definition ends (vs : list V) : nat * nat := match vs with [] => (0, 0) | v :: l => loop_indexes l 1 v v 0 0 end.
Lemma convex_hull_spec (vs : list V) tol : vs <> [] ->
  (fst (ends vs) = snd (ends vs) /\ convex_hull vs tol = Some (vs, 1, 0)) \/
  (fst (ends vs) <> snd (ends vs) /\ exists a b rest chain junk, nth_error vs (fst (ends vs)) = Some a /\ nth_error vs (snd (ends vs)) = Some b /\ Permutation vs (a :: b :: rest) /\
     qh tol rest a b a chain /\ length chain + length junk = 1 + length rest /\ convex_hull vs tol = Some (a :: chain ++ junk, S (length chain), fst (ends vs))).
Proof.
  intros Hn. destruct vs as [|v l]; [contradiction|]. clear Hn. unfold convex_hull, ends. pose proof (loop_bound l 1 v v 0 0 ltac:(lia) ltac:(lia)) as B. destruct (loop_indexes l 1 v v 0 0) as [s e]. cbn [fst snd]. set (vs := v :: l) in *. change (1 + length l) with (length vs) in B. destruct B as [Bs Be].
  destruct (Nat.eqb_spec s e) as [->|NE]; [left; auto|]. right. split; [exact NE|].
  destruct (aswap_perm vs 0 s) as (w & -> & P1 & N0 & Ns & NO); [cbn [length vs]; unfold vs; cbn [length]; lia|lia|].
  assert (LW := Permutation_length P1).
  assert (NB : nth_error w (if e =? 0 then s else e) = nth_error vs e).
  { destruct (Nat.eqb_spec e 0) as [->|Z]; [exact Ns|]. apply NO; lia. }
  assert (SW : (if e =? 0 then aswap w 1 s else aswap w 1 e) = aswap w 1 (if e =? 0 then s else e)) by (destruct (e =? 0); reflexivity). rewrite SW. clear SW.
  assert (NZ : (if e =? 0 then s else e) <> 0) by (destruct (Nat.eqb_spec e 0); lia).
  assert (LT : (if e =? 0 then s else e) < length w) by (destruct (e =? 0); lia). set (k := if e =? 0 then s else e) in *. clearbody k.
  destruct (aswap_perm w 1 k) as (u & -> & P2 & M1 & _ & MO); [lia|lia|].
  rewrite (MO 0) by lia. rewrite N0, M1, NB.
  destruct (nth_error vs s) as [a|] eqn:Ea; [|apply nth_error_None in Ea; lia]. destruct (nth_error vs e) as [b|] eqn:Eb; [|apply nth_error_None in Eb; lia].
  assert (U : exists rest, u = a :: b :: rest).
  { assert (LU := Permutation_length P2). destruct u as [|a' [|b' rest]]; [cbn [length] in *; lia|cbn [length] in *; lia|]. specialize (MO 0 ltac:(lia) ltac:(lia)). cbn [nth_error] in *. rewrite N0 in MO. rewrite NB in M1. injection MO as ->. injection M1 as ->. eauto. }
  destruct U as (rest & ->). assert (PP : Permutation vs (a :: b :: rest)) by (now rewrite P1).
  assert (LV := Permutation_length PP). cbn [length] in LV. replace (length vs - 2) with (length rest) by lia.
  destruct (reduce_spec tol (length vs) [a] [b] rest [] a b a) as (chain & junk & E & Q & LN); [lia|discriminate|]. cbn [app length Nat.add] in E. rewrite !app_nil_r in E. rewrite E.
  exists a, b, rest, chain, junk. repeat split; auto.
Qed.
End HullPf.
