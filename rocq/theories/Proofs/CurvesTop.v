(** SimplifyCurves over the reals. *)
From Coq Require Import Reals ZArith List Arith Bool Lia Lra Permutation Sorted.
From Verif Require Import Num Spec SpecShapes SpecPolyline.
From Verif.Model Require Import Vector Hull Polyline.
From Verif.Proofs Require Import RTac Geom HullPf HullGeo PolylinePf CurvesPf.
Import ListNotations.
Local Open Scope nat_scope.

Lemma links_nth {A} (l : list A) k u w : nth_error l k = Some u -> nth_error l (S k) = Some w -> In (u, w) (links l).
Proof.
  revert k. unfold links. induction l as [|a l IH]; intros k; [destruct k; discriminate|]. destruct l as [|b l]; [destruct k as [|[|]]; discriminate|]. destruct k as [|k].
  - intros [= <-] [= <-]. cbn. auto.
  - intros E1 E2. right. apply (IH k); auto.
Qed.
Lemma closed_iff (l : list RV) : is_closed l = true <-> loops l.
Proof.
  unfold is_closed, loops. rewrite andb_true_iff, Nat.ltb_lt. split.
  - intros [L E]. destruct l as [|v l]; [cbn in L; lia|]. cbn [hd_error] in E. destruct (vlast (v :: l)) as [w|] eqn:Q; [|discriminate]. apply vequal_R in E. subst w. apply vlast_some in Q as [p Q]. destruct p as [|x p]; [injection Q as ->; cbn in L; lia|]. injection Q as <- ->. exists v, p. reflexivity.
  - intros (v & p & ->). split; [cbn; rewrite app_length; cbn; lia|]. cbn [hd_error]. assert (Q : vlast (v :: p ++ [v]) = Some v) by (apply vlast_some; now exists (v :: p)). rewrite Q. now apply vequal_R.
Qed.
Lemma step_on (l : list RV) k q : (is_closed l = false -> S k < length l) -> 2 <= length l -> on_segment (at_ l (ring_size l) k) (at_ l (ring_size l) (S k)) q -> on_path l q.
Proof.
  intros NC L Hq. exists (at_ l (ring_size l) k), (at_ l (ring_size l) (S k)). split; [|exact Hq]. clear Hq. unfold ring_size. destruct (is_closed l) eqn:C.
  - set (c := length l - 1). assert (C1 : 1 <= c) by (unfold c; lia). assert (C2 : c <= length l) by (unfold c; lia). destruct (Nat.eq_dec (S (k mod c)) c) as [E|E].
    + apply (links_nth l (k mod c)); [now apply at_nth|]. assert (Z : S k mod c = 0). { rewrite <- (next_mod c C1). unfold next. rewrite Nat.add_1_r, E. apply Nat.mod_same. lia. }
      unfold at_. rewrite Z. rewrite E. apply closed_iff in C as (v & p & ->). unfold c. cbn [length nth nth_error]. rewrite app_length. cbn [length]. rewrite Nat.add_1_r. replace (S (S (length p)) - 1) with (S (length p)) by lia. cbn [nth_error]. rewrite nth_error_app2, Nat.sub_diag by lia. reflexivity.
    + apply (links_nth l (k mod c)); [now apply at_nth|]. replace (S (k mod c)) with (S k mod c); [now apply at_nth|]. rewrite <- (next_mod c C1). unfold next. rewrite Nat.add_1_r. apply Nat.mod_small. pose proof (mod_lt c C1 k). lia.
  - specialize (NC eq_refl). apply (links_nth l k); unfold at_; rewrite Nat.mod_small by lia; apply nth_error_nth'; lia.
Qed.
Lemma links_sorted ps x y : StronglySorted lt ps -> In (x, y) (links ps) -> x < y /\ In x ps /\ In y ps.
Proof.
  unfold links. induction ps as [|a ps IH]; [intros _ []|]. intros S. inversion S as [|? ? S1 F]; subst. destruct ps as [|b ps]; [intros []|]. intros [[= <- <-]|E].
  - rewrite Forall_forall in F. split; [apply F; cbn; auto|]. cbn. auto.
  - destruct (IH S1 E) as (A & B & C). split; auto. split; right; auto.
Qed.
Lemma links_mapped {A B} (f : A -> B) l : links (map f l) = map (fun e => (f (fst e), f (snd e))) (links l).
Proof. unfold links. induction l as [|a l IH]; [reflexivity|]. destruct l as [|b l]; [reflexivity|]. cbn [map tl combine fst snd] in *. f_equal. exact IH. Qed.
Lemma seg_same (a p : RV) : on_segment a a p -> p = a. Proof. intros (t & _ & ->). apply vec_eq; unfold seg_point; cbn [vx vy]; ring. Qed.
Local Open Scope R_scope.
Lemma curves_within (l : list RV) tol n r : 0 <= tol -> (2 <= length l)%nat -> simplify_curves n tol l = Val r ->
  forall a b p, In (a, b) (links r) -> on_segment a b p -> exists q, on_path l q /\ dist p q * dist a b <= tol * (dist a b + eps).
Proof.
  intros Ht L E a b p Hab Hp. assert (Htol : nltb tol nzero = false) by (unR; apply Rltb_false; lra).
  assert (C1 : (1 <= ring_size l)%nat) by (unfold ring_size; destruct (is_closed l); lia). assert (C2 : (ring_size l <= length l)%nat) by (unfold ring_size; destruct (is_closed l); lia).
  assert (G : forall ps, kept l tol r ps -> (forall x y, In (x, y) (links ps) -> (x <= y)%nat /\ (is_closed l = false -> (y < length l)%nat)) -> exists q, on_path l q /\ dist p q * dist a b <= tol * (dist a b + eps)).
  { intros ps [-> F] B. rewrite links_mapped in Hab. apply in_map_iff in Hab as ([x y] & Exy & Hxy). cbn [fst snd] in Exy. injection Exy as <- <-. rewrite Forall_forall in F. specialize (F _ Hxy). cbn [fst snd] in F. destruct (B x y Hxy) as [B1 B2]. destruct (Nat.eq_dec x y) as [<-|NE].
    - apply seg_same in Hp. subst p. exists (at_ l (ring_size l) x). split.
      + destruct (is_closed l) eqn:C.
        * apply (step_on l x); [congruence|exact L|]. exists 0. split; [lra|]. apply vec_eq; unfold seg_point; cbn [vx vy]; ring.
        * specialize (B2 eq_refl). destruct x as [|x].
          -- apply (step_on l 0); [intros; lia|exact L|]. exists 0. split; [lra|]. apply vec_eq; unfold seg_point; cbn [vx vy]; ring.
          -- apply (step_on l x); [intros; lia|exact L|]. exists 1. split; [lra|]. apply vec_eq; unfold seg_point; cbn [vx vy]; ring.
      + pose proof (dist_ge0 (at_ l (ring_size l) x) (at_ l (ring_size l) x)). replace (dist (at_ l (ring_size l) x) (at_ l (ring_size l) x)) with 0. 2:{ unfold dist, dist2. rewrite <- sqrt_0. f_equal. ring. } rewrite Rmult_0_l. apply Rmult_le_pos; unfold eps; lra.
    - destruct (gap_near l (ring_size l) tol C1 C2 Ht x y p F ltac:(lia) Hp) as (k & q & Hk & Hq & D). exists q. split; [|exact D]. apply (step_on l k); auto. intros C. specialize (B2 C). lia. }
  destruct (is_closed l) eqn:C.
  - destruct (curves_closed l tol n Htol C) as [A _]. destruct (A r E) as (s & e & ks1 & ks2 & K & Bs & _ & S1 & S2). apply (G _ K). intros x y Hxy. split; [|discriminate]. destruct (Nat.eqb_spec e s) as [->|NE].
    + destruct (S2 eq_refl) as [-> ->]. cbn in Hxy. destruct Hxy as [[= <- <-]|[[= <- <-]|[]]]; lia.
    + apply (links_sorted _ x y (S1 NE)) in Hxy. lia.
  - destruct (curves_open l tol n Htol C L) as [A _]. destruct (A r E) as (ks & K & S). apply (G _ K). intros x y Hxy. apply (links_sorted _ x y S) in Hxy as (A1 & A2 & A3). split; [lia|]. intros _.
    clear - A3 S L. assert (B : forall z, In z (0%nat :: ks ++ [(length l - 1)%nat]) -> (z <= length l - 1)%nat); [|specialize (B y A3); lia].
    revert S. generalize (0%nat :: ks) as M. cbn [app]. change (0%nat :: ks ++ [(length l - 1)%nat]) with ((0%nat :: ks) ++ [(length l - 1)%nat]). generalize (0%nat :: ks) as M. intros M M' S z Hz. clear M'. induction M as [|x M IH]; cbn [app] in *; [destruct Hz as [->|[]]; lia|].
    inversion S as [|? ? S1 F]; subst. destruct Hz as [<-|Hz]; [|auto]. rewrite Forall_forall in F. specialize (F (length l - 1)%nat). cut (x < length l - 1)%nat; [lia|]. apply F. apply in_app_iff. cbn. auto.
Qed.
Local Open Scope nat_scope.
Lemma at_seq (l : list RV) c : c <= length l -> 1 <= c -> forall s m, s + m <= c -> map (at_ l c) (seq s m) = firstn m (skipn s l).
Proof.
  intros L C s m. revert s. induction m as [|m IH]; intros s B; [reflexivity|]. cbn [seq map]. rewrite IH by lia. unfold at_ at 1. rewrite Nat.mod_small by lia.
  assert (E : skipn s l = nth s l vzero :: skipn (S s) l). { clear - L B. revert s B. assert (s_lt : forall s, s + S m <= c -> s < length l) by (intros; lia). clear L. intros s B. specialize (s_lt s B). clear B. revert s s_lt. induction l as [|a l IH]; intros s L; [cbn in L; lia|]. destruct s; [reflexivity|]. cbn in L. cbn [skipn nth]. rewrite (IH s ltac:(lia)). reflexivity. }
  rewrite E. reflexivity.
Qed.
Lemma at_shift (l : list RV) c s m : 1 <= c -> map (at_ l c) (seq (s + c) m) = map (at_ l c) (seq s m).
Proof. intros C. revert s. induction m as [|m IH]; intros s; [reflexivity|]. cbn [seq map]. f_equal; [unfold at_; f_equal; replace (s + c) with (s + 1 * c) by lia; apply Nat.mod_add; lia|]. exact (IH (S s)). Qed.
Lemma open_subseq (l : list RV) tol n r : (0 <= tol)%R -> ~ loops l -> 2 <= length l -> simplify_curves n tol l = Val r -> subseq r l /\ hd_error r = hd_error l /\ vlast r = vlast l.
Proof.
  intros Ht NC L E. assert (Htol : nltb tol nzero = false) by (unR; apply Rltb_false; lra). assert (C : is_closed l = false) by (destruct (is_closed l) eqn:Q; auto; exfalso; now apply NC, closed_iff). destruct (curves_open l tol n Htol C L) as [A _]. destruct (A r E) as (ks & [-> _] & S).
  unfold ring_size. rewrite C. assert (E0 := at_seq l (length l) ltac:(lia) ltac:(lia) 0 (length l) ltac:(lia)). rewrite skipn_O, firstn_all in E0. split; [|split].
  - cut (subseq (map (at_ l (length l)) (0 :: ks ++ [length l - 1])) (map (at_ l (length l)) (seq 0 (length l)))); [now rewrite E0|]. apply subseq_map. apply sorted_subseq; auto. rewrite Forall_forall. intros z Hz. split; [lia|].
    change (0 :: ks ++ [length l - 1]) with ((0 :: ks) ++ [length l - 1]) in *. revert S z Hz. generalize (0 :: ks) as M. intros M S z Hz. induction M as [|x M IH]; cbn [app] in *; [destruct Hz as [<-|[]]; lia|].
    inversion S as [|? ? S1 F]; subst. destruct Hz as [<-|Hz]; [|auto]. rewrite Forall_forall in F. specialize (F (length l - 1)). cut (x < length l - 1); [lia|]. apply F. apply in_app_iff. cbn. auto.
  - cbn [map hd_error]. unfold at_. rewrite Nat.mod_0_l by lia. destruct l; [cbn in L; lia|reflexivity].
  - change (0 :: ks ++ [length l - 1]) with ((0 :: ks) ++ [length l - 1]). rewrite map_app. cbn [map]. assert (Q : vlast (at_ l (length l) 0 :: map (at_ l (length l)) ks ++ [at_ l (length l) (length l - 1)]) = Some (at_ l (length l) (length l - 1))) by (apply vlast_some; now exists (at_ l (length l) 0 :: map (at_ l (length l)) ks)). cbn [app]. rewrite Q.
    symmetry. apply vlast_some. destruct (exists_last (l := l)) as (p & w & ->); [intros ->; cbn in L; lia|]. exists p. f_equal. f_equal. unfold at_. rewrite Nat.mod_small by lia. rewrite app_length. cbn [length]. replace (length p + 1 - 1) with (length p) by lia. now rewrite app_nth2, Nat.sub_diag by lia.
Qed.
Lemma closed_subseq (l : list RV) tol n r : (0 <= tol)%R -> loops l -> (exists u w, In u l /\ In w l /\ u <> w) -> simplify_curves n tol l = Val r ->
  loops r /\ exists p v q, removelast l = p ++ v :: q /\ subseq r (v :: q ++ p ++ [v]).
Proof.
  intros Ht CL (u & w & Hu & Hw & NE) E. assert (Htol : nltb tol nzero = false) by (unR; apply Rltb_false; lra). assert (C : is_closed l = true) by now apply closed_iff. destruct (curves_closed l tol n Htol C) as [A _]. destruct (A r E) as (s & e & ks1 & ks2 & [-> _] & Bs & LI & S1 & _).
  destruct CL as (v0 & p0 & El). set (c := ring_size l) in *. assert (Ec : c = S (length p0)) by (unfold c, ring_size; rewrite C, El; cbn; rewrite app_length; cbn; lia).
  assert (Rl : removelast l = v0 :: p0) by (rewrite El; change (v0 :: p0 ++ [v0]) with ((v0 :: p0) ++ [v0]); rewrite removelast_app by discriminate; cbn [removelast]; now rewrite app_nil_r).
  assert (N : e <> s).
  { intros ->. rewrite Nat.mod_small in LI by exact Bs. rewrite El in LI. cbn [tl hd] in LI. rewrite Ec in LI. replace (S (length p0) - 1) with (length p0) in LI by lia. rewrite firstn_app, firstn_all, Nat.sub_diag, firstn_O, app_nil_r in LI.
    destruct (ends_lex (v0 :: p0)) as (a & b & Ea & Eb & _ & LX); [discriminate|]. unfold ends in Ea, Eb. rewrite LI in Ea, Eb. cbn [fst snd] in *. assert (a = b) by congruence. subst b.
    assert (AL : forall x, In x l -> x = a). { intros x Hx. assert (Ix : In x (v0 :: p0)) by (rewrite El in Hx; destruct Hx as [<-|Hx]; [cbn; auto|]; apply in_app_iff in Hx as [Hx|[<-|[]]]; cbn; auto). destruct (LX x Ix). now apply lexle_antisym. }
    apply NE. rewrite (AL u Hu), (AL w Hw). reflexivity. }
  specialize (S1 N). destruct (Nat.eqb_spec e s); [contradiction|]. split.
  - exists (at_ l c s), (map (at_ l c) (ks1 ++ e :: ks2)). cbn [map]. f_equal. rewrite !map_app. cbn [map]. rewrite map_app. cbn [map]. rewrite <- app_assoc. cbn [app]. do 3 f_equal. unfold at_. do 2 f_equal. replace (s + c) with (s + 1 * c) by lia. apply Nat.mod_add. lia.
  - assert (Lr : length (removelast l) = c) by (rewrite Rl; cbn; lia). destruct (nth_error (removelast l) s) as [v|] eqn:Ev; [|apply nth_error_None in Ev; lia]. destruct (nth_error_split _ _ Ev) as (p & q & Epq & Lp). exists p, v, q. split; [exact Epq|].
    assert (Ec2 : l = removelast l ++ [v0]) by (rewrite Rl, El; reflexivity). assert (C2 : c <= length l) by (rewrite Ec2, app_length, Lr; lia).
    assert (K1 : map (at_ l c) (seq s (c - s)) = v :: q).
    { rewrite at_seq by lia. rewrite Ec2, Epq, <- app_assoc. rewrite skipn_app, skipn_all2 by lia. rewrite Lp, Nat.sub_diag. cbn [skipn app]. rewrite <- Lp. assert (Lq : length q = c - s - 1) by (rewrite Epq, app_length in Lr; cbn in Lr; lia). replace (c - length p) with (length (v :: q)) by (cbn; lia). change (v :: q ++ [v0]) with ((v :: q) ++ [v0]). rewrite firstn_app, firstn_all, Nat.sub_diag, firstn_O, app_nil_r. reflexivity. }
    assert (K2 : map (at_ l c) (seq 0 s) = p). { rewrite at_seq by lia. rewrite skipn_O, Ec2, Epq, <- app_assoc, <- Lp, firstn_app, firstn_all, Nat.sub_diag, firstn_O. apply app_nil_r. }
    assert (K3 : at_ l c s = v) by (destruct (c - s) eqn:D; [lia|]; cbn in K1; congruence).
    replace (v :: q ++ p ++ [v]) with (map (at_ l c) (seq s (S c))).
    + apply subseq_map, sorted_subseq; auto. rewrite Forall_forall. intros z Hz. apply StronglySorted_inv in S1 as [S2 F]. rewrite Forall_forall in F. destruct Hz as [<-|Hz]; [lia|]. split; [specialize (F z Hz); lia|].
      assert (B : forall M z, StronglySorted lt (M ++ [s + c]) -> In z (M ++ [s + c]) -> z <= s + c).
      { clear. intros M z S Hz. induction M as [|x M IH]; cbn [app] in *; [destruct Hz as [->|[]]; lia|]. inversion S as [|? ? S1 F]; subst. destruct Hz as [<-|Hz]; [|auto]. rewrite Forall_forall in F. specialize (F (s + c)). cut (x < s + c); [lia|]. apply F. apply in_app_iff. cbn. auto. }
      specialize (B (ks1 ++ e :: ks2) z). rewrite <- app_assoc in B. cbn [app] in B. specialize (B S2 Hz). lia.
    + replace (S c) with ((c - s) + (s + 1)) by lia. rewrite seq_app, seq_app, !map_app, K1. replace (s + (c - s)) with (0 + c) by lia. rewrite at_shift, K2 by lia. replace (0 + c + s) with (s + c) by lia. rewrite at_shift by lia. cbn [seq map app]. now rewrite K3.
Qed.
