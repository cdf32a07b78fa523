(** SimplifyCurves: when it returns, what it returns. *)
From Coq Require Import Reals ZArith List Arith Bool Lia Lra Permutation Sorted.
From Verif Require Import Num Spec SpecShapes SpecPolyline.
From Verif.Model Require Import Vector Hull Polyline.
From Verif.Proofs Require Import RTac Geom HullPf HullGeo PolylinePf.
Import ListNotations.
Local Open Scope nat_scope.

Lemma sorted_subseq ks : forall i m, StronglySorted lt ks -> Forall (fun k => i <= k < i + m) ks -> subseq ks (seq i m).
Proof.
  intros i m. revert i ks. induction m as [|m IH]; intros i ks S B; cbn [seq].
  - destruct ks; [constructor|]. inversion B; subst. lia.
  - destruct ks as [|k ks]; [apply sub_skip, IH; constructor|]. inversion S as [|? ? S1 F1]; subst. inversion B as [|? ? B1 B2]; subst. destruct (Nat.eq_dec k i) as [->|NE].
    + apply sub_keep, IH; auto. rewrite Forall_forall in *. intros x Hx. specialize (F1 x Hx). specialize (B2 x Hx). cbn in *. lia.
    + apply sub_skip, IH; auto. constructor; [lia|]. rewrite Forall_forall in *. intros x Hx. specialize (F1 x Hx). specialize (B2 x Hx). cbn in *. lia.
Qed.
Lemma subseq_map {A B} (f : A -> B) l m : subseq l m -> subseq (map f l) (map f m).
Proof. induction 1; cbn; now constructor. Qed.
Section Mod.
Variable count : nat.
Hypothesis C1 : 1 <= count.
Lemma mod_lt k : k mod count < count. Proof. apply Nat.mod_upper_bound. lia. Qed.
Lemma next_mod k : next (k mod count) count = (S k) mod count.
Proof. unfold next. rewrite Nat.add_mod_idemp_l by lia. now rewrite Nat.add_1_r. Qed.
Lemma mod_ne i j : i < j -> j < i + count -> i mod count <> j mod count.
Proof.
  intros L1 L2 E. pose proof (Nat.div_mod i count ltac:(lia)) as A. pose proof (Nat.div_mod j count ltac:(lia)) as B. rewrite E in A. assert (D : j - i = count * (j / count) - count * (i / count)) by lia.
  rewrite <- Nat.mul_sub_distr_l in D. destruct (j / count - i / count); nia.
Qed.
Lemma span_mod i j : i <= j -> j < i + count -> (j mod count + count - i mod count) mod count = j - i.
Proof.
  intros L1 L2. pose proof (Nat.div_mod i count ltac:(lia)) as A. pose proof (Nat.div_mod j count ltac:(lia)) as B. pose proof (mod_lt i). pose proof (mod_lt j).
  assert (Q : j / count = i / count \/ j / count = S (i / count)) by nia. destruct Q as [Q|Q]; rewrite Q in B.
  - replace (j mod count + count - i mod count) with (j - i + 1 * count) by lia. rewrite Nat.mod_add by lia. apply Nat.mod_small. lia.
  - replace (j mod count + count - i mod count) with (j - i) by nia. apply Nat.mod_small. lia.
Qed.
End Mod.
Section Gen.
Context {T : Type} `{Num T} `{Trig T}.
Notation V := (Vec T).
Variables (verts : list V) (count : nat) (tol mn : T).
Hypothesis C1 : 1 <= count.
Hypothesis C2 : count <= length verts.
Hypothesis Htol : nltb tol nzero = false.

(** the vertex at a position, going round *)
Definition at_ (k : nat) : V := nth (k mod count) verts vzero.
Lemma at_nth k : nth_error verts (k mod count) = Some (at_ k).
Proof. apply nth_error_nth'. pose proof (mod_lt count C1 k). lia. Qed.
Lemma farthest_ok n d : forall m i fuel mx maxi, m < count -> m < fuel -> exists mx' maxi', farthest fuel verts count (i mod count) ((i + m) mod count) n d mx maxi = Val (mx', maxi') /\
  (mx' = mx /\ maxi' = maxi \/ exists k, i <= k < i + m /\ maxi' = k mod count).
Proof.
  induction m as [|m IH]; intros i fuel mx maxi L1 L2; (destruct fuel as [|fuel]; [lia|]); cbn [farthest].
  - rewrite Nat.add_0_r, Nat.eqb_refl. exists mx, maxi. auto.
  - destruct (Nat.eqb_spec (i mod count) ((i + S m) mod count)) as [E|_]; [exfalso; apply (mod_ne count C1 i (i + S m)); lia|]. rewrite at_nth. cbn [lift rbind]. rewrite (next_mod count C1). replace (i + S m) with (S i + m) by lia.
    destruct (nltb mx (offline n d (at_ i))).
    + destruct (IH (S i) fuel (offline n d (at_ i)) (i mod count)) as (mx' & maxi' & E & [[-> ->]|(k & Hk & ->)]); try lia; rewrite E; eexists _, _; (split; [reflexivity|]); right; [exists i|exists k]; split; auto; lia.
    + destruct (IH (S i) fuel mx maxi) as (mx' & maxi' & E & [[-> ->]|(k & Hk & ->)]); try lia; rewrite E; eexists _, _; (split; [reflexivity|]); [left; auto|right; exists k; split; auto; lia].
Qed.
Lemma short_not_true fuel : forall l c i e m len, i <> e -> short_loop fuel l c i e m len <> Val true.
Proof.
  induction fuel as [|fuel IH]; intros l c i e m len NE; cbn [short_loop]; [discriminate|]. destruct (Nat.eqb_spec i e); [contradiction|]. destruct (nth_error l i); cbn [lift rbind]; [|discriminate]. destruct (nth_error l (next i c)); cbn [lift rbind]; [|discriminate].
  destruct (nltb m _); [discriminate|]. now apply IH.
Qed.
(** what is known of the vertices between two kept ones *)
Definition gap (i j : nat) : Prop := i <= j < i + count /\ (j - i < 2 \/ let a := at_ i in let b := at_ j in let n := vnormalize (vperp (vsub b a)) in
  exists mx maxi, farthest (S count) verts count (S i mod count) (j mod count) n (vdot n a) nzero (i mod count) = Val (mx, maxi) /\ nltb tol mx = false).
Definition gaps (i : nat) (ks : list nat) (j : nat) : Prop := Forall (fun e => gap (fst e) (snd e)) (links (i :: ks ++ [j])) /\ Forall (fun k => i < k < j) ks /\ StronglySorted lt ks.
Lemma gaps_join i k j ks ks' : i < k < j -> gaps i ks k -> gaps k ks' j -> gaps i (ks ++ k :: ks') j.
Proof.
  intros L (G1 & B1 & S1) (G2 & B2 & S2). split; [|split].
  - replace (i :: (ks ++ k :: ks') ++ [j]) with ((i :: ks) ++ k :: (ks' ++ [j])) by (cbn; now rewrite <- app_assoc). rewrite links_app. apply Forall_app. split; [exact G1|exact G2].
  - apply Forall_app. split; [eapply Forall_impl; [|exact B1]; cbn; lia|]. constructor; [lia|]. eapply Forall_impl; [|exact B2]. cbn. lia.
  - clear G1 G2. induction S1 as [|x l S1 IH F1]; cbn [app].
    + constructor; auto. eapply Forall_impl; [|exact B2]. cbn. lia.
    + inversion B1; subst. constructor; auto. apply Forall_app. split; [auto|]. constructor; [lia|]. eapply Forall_impl; [|exact B2]. cbn. lia.
Qed.
Lemma dp_ok sfuel : forall dfuel i j reduced, i <= j < i + count -> 1 <= dfuel -> j - i <= dfuel ->
  let r := douglas_peucker dfuel sfuel verts reduced count (i mod count) (j mod count) mn tol in
  (forall v, r = Val v -> exists ks, v = reduced ++ map at_ ks /\ gaps i ks j) /\
  ((forall x y, x < y < x + count -> i <= x -> y <= j -> vnear (at_ x) (at_ y) mn = false) -> exists v, r = Val v).
Proof.
  induction dfuel as [|dfuel IH]; intros i j reduced L D1 D2; [lia|]. cbn [douglas_peucker]. rewrite (span_mod count C1) by lia. destruct (Nat.ltb_spec (j - i) 2) as [S2|S2].
  - cbv zeta. split; [|eauto]. intros v [= <-]. exists []. cbn [map]. rewrite app_nil_r. split; [reflexivity|]. split; [|split; constructor]. cbn. constructor; [|constructor]. split; [exact L|]. left. cbn [fst snd]. lia.
  - rewrite !at_nth. cbn [lift rbind]. cbv zeta.
    set (n := vnormalize (vperp (vsub (at_ j) (at_ i)))). rewrite (next_mod count C1). destruct (farthest_ok n (vdot n (at_ i)) (j - S i) (S i) (S count) nzero (i mod count)) as (mx & maxi & E & W); try lia. replace (S i + (j - S i)) with j in * by lia.
    set (stop := if vnear (at_ i) (at_ j) mn then _ else _). assert (NS : stop <> Val true) by (unfold stop; destruct (vnear _ _ _); [|discriminate]; apply short_not_true, (mod_ne count C1); lia).
    assert (CASE : stop = Out \/ stop = Panic \/ stop = Val false) by (destruct stop as [| |[|]]; auto; contradiction).
    assert (NF : (forall x y, x < y < x + count -> i <= x -> y <= j -> vnear (at_ x) (at_ y) mn = false) -> stop = Val false) by (intros NN; unfold stop; rewrite NN by lia; reflexivity).
    destruct CASE as [->|[->|ST]]; [split; [discriminate|intros NN; specialize (NF NN); discriminate]|split; [discriminate|intros NN; specialize (NF NN); discriminate]|]. rewrite ST. cbn [rbind]. rewrite E. cbn [rbind].
    destruct (nltb tol mx) eqn:TM.
    + destruct W as [[-> _]|(k & Hk & ->)]; [congruence|]. rewrite at_nth. destruct (IH i k reduced) as [A1 A2]; try lia.
      destruct (douglas_peucker dfuel sfuel verts reduced count (i mod count) (k mod count) mn tol) as [| |r1] eqn:R1; cbn [rbind lift].
      * split; [discriminate|]. intros NN. destruct A2 as [v A2]; [intros; apply NN; lia|discriminate].
      * split; [discriminate|]. intros NN. destruct A2 as [v A2]; [intros; apply NN; lia|discriminate].
      * destruct (A1 r1 eq_refl) as (ks & -> & G1). destruct (IH k j ((reduced ++ map at_ ks) ++ [at_ k])) as [B1 B2]; try lia. split.
        -- intros v Ev. destruct (B1 v Ev) as (ks' & -> & G2). exists (ks ++ k :: ks'). split; [rewrite map_app; cbn [map]; now rewrite <- !app_assoc|]. apply gaps_join; auto; lia.
        -- intros NN. apply B2. intros; apply NN; lia.
    + split; [|eauto]. intros v [= <-]. exists []. cbn [map]. rewrite app_nil_r. split; [reflexivity|]. split; [|split; constructor]. cbn. constructor; [|constructor]. split; [exact L|]. right. cbn [fst snd]. cbv zeta. fold n. eauto.
Qed.
(** positions kept are in order *)
Lemma gaps_sorted i ks j : i < j -> gaps i ks j -> StronglySorted lt (i :: ks ++ [j]).
Proof.
  intros L (_ & B & S). constructor.
  - clear - B S. induction S as [|x l S IH F]; cbn; [repeat constructor|]. inversion B; subst. constructor; auto. apply Forall_app. split; [auto|]. constructor; [lia|constructor].
  - apply Forall_app. split; [eapply Forall_impl; [|exact B]; cbn; lia|]. constructor; [lia|constructor].
Qed.
End Gen.

(** ** ideal arithmetic *)
Local Open Scope R_scope.
Definition eps : R := 1 / 1000000000000000.
Section Ideal.
Variables (verts : list RV) (count : nat) (tol : R).
Hypothesis C1 : (1 <= count)%nat.
Hypothesis C2 : (count <= length verts)%nat.
Hypothesis Htol : 0 <= tol.
Notation pt := (at_ verts count).
Lemma farthest_max n d : forall m i fuel mx maxi mx' maxi', (m < count)%nat -> (m < fuel)%nat -> farthest fuel verts count (i mod count) ((i + m) mod count) n d mx maxi = Val (mx', maxi') ->
  mx <= mx' /\ forall k, (i <= k < i + m)%nat -> offline n d (pt k) <= mx'.
Proof.
  induction m as [|m IH]; intros i fuel mx maxi mx' maxi' L1 L2; (destruct fuel as [|fuel]; [lia|]); cbn [farthest].
  - rewrite Nat.add_0_r, Nat.eqb_refl. intros [= <- <-]. split; [lra|]. intros; lia.
  - destruct (Nat.eqb_spec (i mod count) ((i + S m) mod count)) as [E|_]; [exfalso; apply (mod_ne count C1 i (i + S m)); lia|]. rewrite (at_nth verts count C1 C2). cbn [lift rbind]. rewrite (next_mod count C1). replace (i + S m)%nat with (S i + m)%nat by lia.
    cbn [nltb numR]. destruct (Rltb mx (offline n d (pt i))) eqn:Q; rbool; intros E; destruct (IH (S i) fuel _ _ _ _ ltac:(lia) ltac:(lia) E) as [A B]; (split; [lra|]); intros k Hk; (destruct (Nat.eq_dec k i) as [->|NE]; [lra|apply B; lia]).
Qed.
Lemma offline_turn (a b v : RV) : let n := vnormalize (vperp (vsub b a)) in offline n (vdot n a) v = Rabs (turn a b v) / (dist a b + eps).
Proof.
  cbv zeta. unfold offline, vnormalize, vlen, vperp, vmult, vsub, vdot, turn, dist, dist2. unR. cbn [vx vy]. replace (- (vy b - vy a) * - (vy b - vy a) + (vx b - vx a) * (vx b - vx a)) with ((vx a - vx b) * (vx a - vx b) + (vy a - vy b) * (vy a - vy b)) by ring.
  set (D := sqrt _ + _). assert (Dp : 0 < D) by (unfold D; pose proof (sqrt_pos ((vx a - vx b) * (vx a - vx b) + (vy a - vy b) * (vy a - vy b))); lra).
  replace (sqrt ((vx a - vx b) * (vx a - vx b) + (vy a - vy b) * (vy a - vy b)) + eps) with D by (unfold D, eps; lra).
  match goal with |- Rabs ?x = _ => replace x with (((vx b - vx a) * (vy v - vy a) - (vy b - vy a) * (vx v - vx a)) / D) by (field; lra) end.
  unfold Rdiv. rewrite Rabs_mult, (Rabs_pos_eq (/ D)); [reflexivity|]. left. now apply Rinv_0_lt_compat.
Qed.
Lemma gap_turn i j k : gap verts count tol i j -> (i <= k <= j)%nat -> Rabs (turn (pt i) (pt j) (pt k)) <= tol * (dist (pt i) (pt j) + eps).
Proof.
  intros [L G] Hk. assert (Dp : 0 < dist (pt i) (pt j) + eps) by (pose proof (dist_ge0 (pt i) (pt j)); unfold eps; lra). assert (Z : 0 <= tol * (dist (pt i) (pt j) + eps)) by (apply Rmult_le_pos; lra).
  destruct (Nat.eq_dec k i) as [->|N1]; [replace (turn _ _ _) with 0 by (unfold turn; ring); now rewrite Rabs_R0|]. destruct (Nat.eq_dec k j) as [->|N2]; [replace (turn _ _ _) with 0 by (unfold turn; ring); now rewrite Rabs_R0|].
  destruct G as [G|(mx & maxi & E & TM)]; [lia|]. cbv zeta in E. set (n := vnormalize _) in *. replace j with (S i + (j - S i))%nat in E at 1 by lia. apply farthest_max in E as [_ B]; try lia. specialize (B k ltac:(lia)). cbn [nltb numR] in TM. apply Rltb_false in TM.
  unfold n in B. rewrite offline_turn in B. apply Rmult_le_reg_r with (/ (dist (pt i) (pt j) + eps)); [now apply Rinv_0_lt_compat|]. rewrite Rmult_assoc, Rinv_r by lra. unfold Rdiv in B. lra.
Qed.
Lemma crossing (g : nat -> R) c i : forall m, g i <= c -> c <= g (i + m)%nat -> m <> 0%nat -> exists k, (i <= k < i + m)%nat /\ g k <= c <= g (S k).
Proof.
  induction m as [|m IH]; intros A B Hm; [contradiction|]. destruct (Rle_dec (g (i + m)%nat) c) as [L|L].
  - exists (i + m)%nat. split; [lia|]. replace (S (i + m)) with (i + S m)%nat by lia. auto.
  - destruct m as [|m]; [rewrite Nat.add_0_r in L; lra|]. destruct IH as (k & Hk & E); try lra; try discriminate. exists k. split; [lia|exact E].
Qed.
Lemma gap_near i j p : gap verts count tol i j -> (i < j)%nat -> on_segment (pt i) (pt j) p -> exists k q, (i <= k < j)%nat /\ on_segment (pt k) (pt (S k)) q /\ dist p q * dist (pt i) (pt j) <= tol * (dist (pt i) (pt j) + eps).
Proof.
  intros G L (t & Ht & ->). set (a := pt i). set (b := pt j). set (e := vminus b a). pose (g := fun k => inner (vminus (pt k) a) e). assert (N2 : 0 <= norm2 e) by (unfold norm2; pose proof (Rle_0_sqr (vx e)); pose proof (Rle_0_sqr (vy e)); unfold Rsqr in *; unfold inner; lra).
  assert (Gi : g i = 0) by (unfold g, a, inner, vminus; cbn [vx vy]; ring). assert (Gj : g j = norm2 e) by reflexivity.
  destruct (crossing g (t * norm2 e) i (j - i)) as (k & Hk & Ck).
  - rewrite Gi. apply Rmult_le_pos; lra.
  - replace (i + (j - i))%nat with j by lia. rewrite Gj. rewrite <- (Rmult_1_l (norm2 e)) at 2. apply Rmult_le_compat_r; lra.
  - lia.
  - set (c := t * norm2 e) in *. assert (Hu : exists u, 0 <= u <= 1 /\ g k + u * (g (S k) - g k) = c).
    { destruct (Req_dec (g (S k)) (g k)) as [E|E]; [exists 0; split; [lra|]; lra|]. exists ((c - g k) / (g (S k) - g k)). split; [|field; lra]. split; [apply Rmult_le_pos; [lra|]; left; apply Rinv_0_lt_compat; lra|]. apply Rmult_le_reg_r with (g (S k) - g k); [lra|]. unfold Rdiv. rewrite Rmult_assoc, Rinv_l by lra. lra. }
    destruct Hu as (u & Hu & Ec). exists k, (seg_point (pt k) (pt (S k)) u). split; [lia|]. split; [exists u; auto|]. set (q := seg_point _ _ u). set (p := seg_point a b t).
    assert (B1 := gap_turn i j k G ltac:(lia)). assert (B2 := gap_turn i j (S k) G ltac:(lia)). fold a b in B1, B2. set (B := tol * (dist a b + eps)) in *.
    assert (TQ : Rabs (turn a b q) <= B).
    { replace (turn a b q) with ((1 - u) * turn a b (pt k) + u * turn a b (pt (S k))) by (unfold q, turn, seg_point; cbn [vx vy]; ring). eapply Rle_trans; [apply Rabs_triang|]. rewrite !Rabs_mult, (Rabs_pos_eq u), (Rabs_pos_eq (1 - u)) by lra.
      pose proof (Rmult_le_compat_l (1 - u) _ _ ltac:(lra) B1). pose proof (Rmult_le_compat_l u _ _ ltac:(lra) B2). lra. }
    assert (PERP : inner (vminus q p) e = 0). { replace (inner (vminus q p) e) with (g k + u * (g (S k) - g k) - t * norm2 e); [unfold c in Ec; lra|]. unfold q, p, g, e, norm2, seg_point, vminus, inner. cbn [vx vy]. ring. }
    assert (SQ : (dist p q * dist a b) * (dist p q * dist a b) = turn a b q * turn a b q).
    { assert (E1 : dist p q * dist p q = dist2 p q) by (unfold dist; apply sqrt_sqrt; unfold dist2; pose proof (Rle_0_sqr (vx p - vx q)); pose proof (Rle_0_sqr (vy p - vy q)); unfold Rsqr in *; lra).
      assert (E2 : dist a b * dist a b = dist2 a b) by (unfold dist; apply sqrt_sqrt; unfold dist2; pose proof (Rle_0_sqr (vx a - vx b)); pose proof (Rle_0_sqr (vy a - vy b)); unfold Rsqr in *; lra).
      replace (dist p q * dist a b * (dist p q * dist a b)) with ((dist p q * dist p q) * (dist a b * dist a b)) by ring. rewrite E1, E2.
      replace (dist2 p q * dist2 a b) with (inner (vminus q p) e * inner (vminus q p) e + (turn a b q - turn a b p) * (turn a b q - turn a b p)) by (unfold dist2, e, inner, vminus, turn; cbn [vx vy]; ring). rewrite PERP. replace (turn a b p) with 0 by (unfold p, turn, seg_point; cbn [vx vy]; ring). ring. }
    assert (NN : 0 <= dist p q * dist a b) by (apply Rmult_le_pos; apply dist_ge0). rewrite <- (Rabs_pos_eq _ NN). apply Rsqr_eq_abs_0 in SQ. rewrite SQ. exact TQ.
Qed.
End Ideal.

(** ** the whole function *)
Local Open Scope nat_scope.
Section Top.
Context {T : Type} `{Num T} `{Trig T}.
Notation V := (Vec T).
Variables (l : list V) (tol : T) (sfuel : nat).
Hypothesis Htol : nltb tol nzero = false.
Definition ring_size : nat := if is_closed l then length l - 1 else length l.
Notation pt := (at_ l ring_size).
(** the positions kept *)
Definition kept (r : list V) (ps : list nat) : Prop := r = map pt ps /\ Forall (fun e => gap l ring_size tol (fst e) (snd e)) (links ps).
Lemma at_small k : k < ring_size -> nth_error l k = Some (pt k).
Proof. intros L. assert (S : ring_size <= length l) by (unfold ring_size; destruct (is_closed l); lia). unfold at_. rewrite Nat.mod_small by exact L. apply nth_error_nth'. lia. Qed.
Definition spread : Prop := forall i j, i < ring_size -> j < ring_size -> i <> j -> vnear (nth i l vzero) (nth j l vzero) (ndiv tol ntwo) = false.
Lemma spread_at (S : spread) : 1 <= ring_size -> forall x y, x < y < x + ring_size -> vnear (pt x) (pt y) (ndiv tol ntwo) = false.
Proof. intros C x y L. unfold at_. apply S; try (now apply mod_lt). apply mod_ne; lia. Qed.
Lemma curves_open : is_closed l = false -> 2 <= length l ->
  (forall r, simplify_curves sfuel tol l = Val r -> exists ks, kept r (0 :: ks ++ [length l - 1]) /\ StronglySorted lt (0 :: ks ++ [length l - 1])) /\
  (spread -> exists r, simplify_curves sfuel tol l = Val r).
Proof.
  intros NC L. pose proof at_small as AS. pose proof spread_at as SA. unfold kept in *. unfold spread, ring_size in *. rewrite NC in *. unfold simplify_curves. rewrite NC. rewrite (AS 0), (AS (length l - 1)) by lia. cbn [lift rbind].
  destruct (dp_ok l (length l) tol (ndiv tol ntwo) ltac:(lia) ltac:(lia) Htol sfuel (length l) 0 (length l - 1) [at_ l (length l) 0]) as [A B]; try lia. rewrite Nat.mod_0_l, Nat.mod_small in A, B by lia.
  destruct (douglas_peucker _ _ _ _ _ _ _ _ _) as [| |r1]; cbn [rbind].
  - split; [discriminate|]. intros S. destruct B as [v B]; [|discriminate]. intros; apply SA; auto; lia.
  - split; [discriminate|]. intros S. destruct B as [v B]; [|discriminate]. intros; apply SA; auto; lia.
  - split; [|eauto]. intros r [= <-]. destruct (A r1 eq_refl) as (ks & -> & G). exists ks. split; [|apply (gaps_sorted l (length l) tol); auto; lia]. split; [|apply G]. cbn [map app]. rewrite map_app. reflexivity.
Qed.
Lemma curves_closed : is_closed l = true ->
  (forall r, simplify_curves sfuel tol l = Val r -> exists s e ks1 ks2, kept r (s :: ks1 ++ e :: ks2 ++ [if Nat.eqb e s then s else s + ring_size]) /\ s < ring_size /\
      loop_indexes (firstn (ring_size - 1) (tl l)) 1 (hd vzero l) (hd vzero l) 0 0 = (s, e mod ring_size) /\ (e <> s -> StronglySorted lt (s :: ks1 ++ e :: ks2 ++ [s + ring_size])) /\ (e = s -> ks1 = [] /\ ks2 = [])) /\
  (spread -> exists r, simplify_curves sfuel tol l = Val r).
Proof.
  intros CL. pose proof at_small as AS. pose proof spread_at as SA. unfold kept in *. unfold spread, ring_size in *. unfold simplify_curves. rewrite CL in *.
  assert (L2 : 2 <= length l) by (unfold is_closed in CL; apply andb_prop in CL as [CL _]; apply Nat.ltb_lt in CL; lia). destruct l as [|v rest] eqn:El; [cbn in L2; lia|]. rewrite <- El in *. set (c := length l - 1) in *. assert (Lr : length rest = c) by (unfold c; rewrite El; cbn; lia). assert (hd vzero l = v) by (rewrite El; reflexivity). assert (tl l = rest) by (rewrite El; reflexivity).
  pose proof (loop_bound (firstn (c - 1) rest) 1 v v 0 0 ltac:(lia) ltac:(lia)) as LB. rewrite H1, H2. destruct (loop_indexes (firstn (c - 1) rest) 1 v v 0 0) as [s e]. rewrite firstn_length_le in LB by lia. replace (1 + (c - 1)) with c in LB by lia. destruct LB as [Bs Be].
  rewrite !AS by lia. cbn [lift rbind]. clear El H1 H2. assert (C1 : 1 <= c) by lia. assert (C2 : c <= length l) by (unfold c; lia).
  set (m := (e + c - s) mod c). assert (Lm : m < c) by (apply Nat.mod_upper_bound; lia). assert (Em : (s + m) mod c = e).
  { unfold m. rewrite Nat.add_mod_idemp_r by lia. replace (s + (e + c - s)) with (e + 1 * c) by lia. rewrite Nat.mod_add by lia. apply Nat.mod_small; lia. }
  assert (Es : s mod c = s) by (apply Nat.mod_small; lia). assert (Ae : at_ l c e = at_ l c (s + m)) by (unfold at_; rewrite Em, Nat.mod_small by lia; reflexivity).
  pose proof (dp_ok l c tol (ndiv tol ntwo) C1 C2 Htol sfuel (length l) s (s + m) [at_ l c s] ltac:(lia) ltac:(lia) ltac:(lia)) as [A B]. rewrite Es, Em in A, B.
  destruct (douglas_peucker (length l) sfuel l [at_ l c s] c s e (ndiv tol ntwo) tol) as [| |r1]; cbn [rbind].
  { split; [discriminate|]. intros S. destruct B as [x B]; [|discriminate]. intros; apply SA; auto; lia. }
  { split; [discriminate|]. intros S. destruct B as [x B]; [|discriminate]. intros; apply SA; auto; lia. }
  destruct (A r1 eq_refl) as (ks1 & -> & G1). clear A B. set (t := if Nat.eqb (s + m) s then s else s + c). assert (Et : t mod c = s) by (unfold t; destruct (Nat.eqb (s + m) s); auto; replace (s + c) with (s + 1 * c) by lia; rewrite Nat.mod_add by lia; exact Es).
  assert (Lt : s + m <= t < s + m + c) by (unfold t; destruct (Nat.eqb_spec (s + m) s); lia).
  pose proof (dp_ok l c tol (ndiv tol ntwo) C1 C2 Htol sfuel (length l) (s + m) t (([at_ l c s] ++ map (at_ l c) ks1) ++ [at_ l c e]) ltac:(lia) ltac:(lia) ltac:(lia)) as [A B]. rewrite Et, Em in A, B.
  destruct (douglas_peucker (length l) sfuel l _ c e s (ndiv tol ntwo) tol) as [| |r2]; cbn [rbind].
  { split; [discriminate|]. intros S. destruct B as [x B]; [|discriminate]. intros; apply SA; auto; lia. }
  { split; [discriminate|]. intros S. destruct B as [x B]; [|discriminate]. intros; apply SA; auto; lia. }
  split; [|eauto]. intros r [= <-]. destruct (A r2 eq_refl) as (ks2 & -> & G2). exists s, (s + m), ks1, ks2. fold t.
  split; [split|split; [exact Bs|split; [now rewrite Em|split]]].
  - assert (At : at_ l c t = at_ l c s) by (unfold at_; rewrite Et, Es; reflexivity). cbn [app map]. rewrite !map_app. cbn [map]. rewrite map_app. cbn [map]. rewrite <- !app_assoc. cbn [app]. rewrite Ae, At. rewrite <- ?app_assoc. reflexivity.
  - change (s :: ks1 ++ (s + m) :: ks2 ++ [t]) with ((s :: ks1) ++ (s + m) :: (ks2 ++ [t])). rewrite links_app. apply Forall_app. split; [apply G1|apply G2].
  - intros NE. assert (t = s + c) by (unfold t; destruct (Nat.eqb_spec (s + m) s); lia). rewrite H1 in *. assert (G : gaps l c tol s (ks1 ++ (s + m) :: ks2) (s + c)) by (apply gaps_join; auto; lia). apply gaps_sorted in G; auto; [|lia]. rewrite <- app_assoc in G. exact G.
  - intros E. destruct G1 as (_ & B1 & _). destruct G2 as (_ & B2 & _). assert (t = s) by (unfold t; destruct (Nat.eqb_spec (s + m) s); lia). rewrite H1, E in *. split; [destruct ks1; auto; inversion B1; lia|destruct ks2; auto; inversion B2; lia].
Qed.
End Top.
(** the rounds allowed to IsShort do not change the value *)
Section Det.
Context {T : Type} `{Num T} `{Trig T}.
Notation V := (Vec T).
Lemma short_det n : forall m (l : list V) c i e mn x b b', short_loop n l c i e mn x = Val b -> short_loop m l c i e mn x = Val b' -> b = b'.
Proof.
  induction n as [|n IH]; intros m l c i e mn x b b'; [discriminate|]. destruct m as [|m]; [discriminate|]. cbn [short_loop]. destruct (Nat.eqb i e); [congruence|]. destruct (nth_error l i); cbn [lift rbind]; [|discriminate]. destruct (nth_error l (next i c)); cbn [lift rbind]; [|discriminate]. destruct (nltb mn _); [congruence|]. apply IH.
Qed.
Lemma dp_det (verts : list V) c mn tol n m : forall d red s e r r', douglas_peucker d n verts red c s e mn tol = Val r -> douglas_peucker d m verts red c s e mn tol = Val r' -> r = r'.
Proof.
  induction d as [|d IH]; intros red s e r r'; [discriminate|]. cbn [douglas_peucker]. destruct (Nat.ltb _ 2); [congruence|]. destruct (nth_error verts s) as [a|]; cbn [lift rbind]; [|discriminate]. destruct (nth_error verts e) as [b|]; cbn [lift rbind]; [|discriminate].
  assert (G : forall o o', (forall x x', o = Val x -> o' = Val x' -> x = x') -> forall k k' : bool -> Res (list V), (forall x r r', k x = Val r -> k' x = Val r' -> r = r') -> rbind o k = Val r -> rbind o' k' = Val r' -> r = r').
  { intros [| |x] [| |x'] E k k' K; cbn [rbind]; try discriminate. specialize (E x x' eq_refl eq_refl). subst. apply K. }
  apply G; [destruct (vnear a b mn); [intros x x'; apply short_det|intros x x'; congruence]|]. clear G. intros x r0 r0'. destruct x; [congruence|]. destruct (farthest _ _ _ _ _ _ _ _ _) as [| |[mx maxi]]; cbn [rbind]; try discriminate. destruct (nltb tol mx); [|congruence].
  destruct (douglas_peucker d n verts red c s maxi mn tol) as [| |r1] eqn:E1; cbn [rbind]; try discriminate. destruct (douglas_peucker d m verts red c s maxi mn tol) as [| |r2] eqn:E2; cbn [rbind]; try discriminate. rewrite (IH _ _ _ _ _ E1 E2). destruct (nth_error verts maxi); cbn [lift rbind]; [|discriminate]. apply IH.
Qed.
Lemma curves_det (l : list V) tol n m r r' : simplify_curves n tol l = Val r -> simplify_curves m tol l = Val r' -> r' = r.
Proof.
  unfold simplify_curves. destruct (is_closed l).
  - destruct l as [|v rest]; [discriminate|]. destruct (loop_indexes _ _ _ _ _ _) as [s e]. destruct (nth_error _ s); cbn [lift rbind]; [|discriminate]. destruct (douglas_peucker _ n _ _ _ _ _ _ _) as [| |r1] eqn:E1; cbn [rbind]; try discriminate. destruct (douglas_peucker _ m _ _ _ _ _ _ _) as [| |r2] eqn:E2; cbn [rbind]; try discriminate.
    rewrite <- (dp_det _ _ _ _ _ _ _ _ _ _ _ _ E1 E2). clear E1 E2. destruct (nth_error _ e); cbn [lift rbind]; [|discriminate]. destruct (douglas_peucker _ n _ _ _ _ _ _ _) as [| |r3] eqn:E1; cbn [rbind]; try discriminate. destruct (douglas_peucker _ m _ _ _ _ _ _ _) as [| |r4] eqn:E2; cbn [rbind]; try discriminate. rewrite (dp_det _ _ _ _ _ _ _ _ _ _ _ _ E1 E2). congruence.
  - destruct (nth_error l 0); cbn [lift rbind]; [|discriminate]. destruct (douglas_peucker _ n _ _ _ _ _ _ _) as [| |r1] eqn:E1; cbn [rbind]; try discriminate. destruct (douglas_peucker _ m _ _ _ _ _ _ _) as [| |r2] eqn:E2; cbn [rbind]; try discriminate. rewrite (dp_det _ _ _ _ _ _ _ _ _ _ _ _ E1 E2). destruct (nth_error l _); cbn [lift rbind]; [congruence|discriminate].
Qed.
End Det.
