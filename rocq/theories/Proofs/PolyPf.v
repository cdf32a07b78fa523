(** Convex polygons: region, boundary, and the polygon's point query (C45). *)
From Coq Require Import Reals ZArith Bool List Lra Lia Psatz.
From Verif Require Import Num Spec SpecShapes.
From Verif.Model Require Import Vector BB Transform Shapes.
From Verif.Proofs Require Import RTac Geom ShapePf ShapePf2.
Import ListNotations.

(** ** the ring of edges *)
Lemma last_dflt {A} (l : list A) d d' : l <> [] -> last l d = last l d'.
Proof. induction l as [|a [|b l] IH]; intros N; [congruence|reflexivity|]. change (last (b :: l) d = last (b :: l) d'). apply IH. discriminate. Qed.
Lemma last_In {A} (l : list A) d : l <> [] -> In (last l d) l.
Proof. induction l as [|a [|b l] IH]; intros N; [congruence|cbn; auto|]. right. apply IH. discriminate. Qed.
Lemma last_map {A B} (f : A -> B) l d : last (map f l) (f d) = f (last l d).
Proof. induction l as [|a [|b l] IH]; [reflexivity|reflexivity|]. exact IH. Qed.
Lemma ring_loop vs d : vs <> [] -> ring vs = loop d vs.
Proof. destruct vs as [|v vs]; [congruence|]. intros N. unfold ring, loop. now rewrite (last_dflt _ v d N). Qed.
Lemma combine_shift_snd {A} (l : list A) : forall x, map snd (combine (x :: l) l) = l.
Proof. induction l as [|a l IH]; intros x; [reflexivity|]. cbn [combine map snd]. f_equal. apply IH. Qed.
Lemma ring_snd vs : map snd (ring vs) = vs.
Proof. destruct vs; [reflexivity|]. apply combine_shift_snd. Qed.
Lemma chain_in {A} (l : list A) : forall x a b, In (a, b) (combine (x :: l) l) -> (a = x \/ In a l) /\ In b l.
Proof. induction l as [|y l IH]; intros x a b; cbn [combine In]; [tauto|]. intros [[= <- <-]|I]; [auto|]. apply IH in I. destruct I as [[->|I1] I2]; auto. Qed.
Lemma ring_in vs a b : In (a, b) (ring vs) -> In a vs /\ In b vs.
Proof. destruct vs as [|v vs]; [intros []|]. unfold ring. intros I. apply chain_in in I as [[->|I1] I2]; split; auto. apply last_In. discriminate. Qed.
(** position of an edge: l = l1 ++ b :: l2, a the last of x :: l1 *)
Lemma chain_split {A} (l : list A) : forall x a b, In (a, b) (combine (x :: l) l) <-> exists l1 l2, l = l1 ++ b :: l2 /\ a = last (x :: l1) x.
Proof.
  induction l as [|y l IH]; intros x a b; cbn [combine In].
  - split; [tauto|]. intros ([|] & l2 & E & _); discriminate.
  - split.
    + intros [[= <- <-]|I]; [exists [], l; auto|]. apply IH in I as (l1 & l2 & -> & ->). exists (y :: l1), l2. split; [reflexivity|]. change (last (y :: l1) y = last (y :: l1) x). apply last_dflt. discriminate.
    + intros ([|y' l1] & l2 & E & ->); injection E as <- E; [left; reflexivity|]. right. apply IH. exists l1, l2. split; auto. change (last (y :: l1) x = last (y :: l1) y). apply last_dflt. discriminate.
Qed.
Lemma last_app1 {A} (l : list A) a d : last (l ++ [a]) d = a.
Proof. induction l as [|b l IH]; [reflexivity|]. cbn [app last]. destruct (l ++ [a]) eqn:E; [destruct l; discriminate|]. rewrite <- E in *. exact IH. Qed.
Lemma last_cons {A} (x : A) l d : l <> [] -> last (x :: l) d = last l d. Proof. destruct l; [congruence|reflexivity]. Qed.
Lemma last_app {A} (l m : list A) d : m <> [] -> last (l ++ m) d = last m d.
Proof. intros N. induction l as [|b l IH]; [reflexivity|]. cbn [app]. rewrite last_cons; auto. intros E. apply app_eq_nil in E. tauto. Qed.
Lemma ring_succ vs a b : In (a, b) (ring vs) -> exists d, In (b, d) (ring vs).
Proof.
  destruct vs as [|v vs]; [intros []|]. unfold ring. intros I. apply chain_split in I as (l1 & l2 & E & ->). destruct l2 as [|d l2].
  - exists v. apply chain_split. exists [], vs. split; auto. rewrite E. now rewrite last_app1.
  - exists d. apply chain_split. exists (l1 ++ [b]), l2. split; [rewrite E, <- app_assoc; reflexivity|]. rewrite last_cons by (destruct l1; discriminate). now rewrite last_app1.
Qed.
Lemma ring_pred vs a b : In (a, b) (ring vs) -> exists z, In (z, a) (ring vs).
Proof.
  intros I. apply ring_in in I as [I _]. rewrite <- (ring_snd vs) in I. apply in_map_iff in I as ([z a'] & <- & I). eauto.
Qed.
(** in a ring without repetitions the successor of the edge [a b] does not end in [a] unless there are two vertices only *)
Lemma nodup_pos {A} (c : A) : forall (P Q P' Q' : list A), NoDup (P ++ c :: Q) -> P ++ c :: Q = P' ++ c :: Q' -> P = P' /\ Q = Q'.
Proof.
  induction P as [|p P IH]; intros Q P' Q' N E; destruct P' as [|p' P']; cbn [app] in *; injection E as; subst; auto.
  - apply NoDup_cons_iff in N as [N _]. exfalso. apply N. apply in_or_app. right. cbn. auto.
  - apply NoDup_cons_iff in N as [N _]. exfalso. apply N. apply in_or_app. right. cbn. auto.
  - apply NoDup_cons_iff in N as [_ N]. destruct (IH Q P' Q' N H0) as [-> ->]. auto.
Qed.
Lemma last_snoc {A} (l : list A) d : l <> [] -> exists m, l = m ++ [last l d].
Proof. intros N. destruct (exists_last N) as (m & x & ->). exists m. now rewrite last_app1. Qed.
(** an edge either wraps around or joins neighbours of the list *)
Lemma ring_cases vs a b : In (a, b) (ring vs) -> (exists m, vs = b :: m /\ a = last vs b) \/ exists l1 l2, vs = l1 ++ a :: b :: l2.
Proof.
  destruct vs as [|v vs]; [intros []|]. unfold ring. intros I. apply chain_split in I as ([|y l1] & l2 & E & ->).
  - left. injection E as -> ->. exists l2. auto.
  - right. rewrite last_cons by discriminate. destruct (last_snoc (y :: l1) (last (v :: vs) v)) as (m & M); [discriminate|]. set (a := last (y :: l1) (last (v :: vs) v)) in *. clearbody a. exists m, l2. rewrite E, M, <- app_assoc. reflexivity.
Qed.
Lemma ring_len2 vs a b : NoDup vs -> (3 <= length vs)%nat -> In (a, b) (ring vs) -> ~ In (b, a) (ring vs).
Proof.
  intros ND L I J. apply ring_cases in I as [(m & E & A)|(l1 & l2 & E)]; apply ring_cases in J as [(m' & E' & B)|(k1 & k2 & E')].
  - rewrite E in E'. injection E' as -> ->. rewrite E in *. destruct m' as [|u m']; [cbn in L; lia|]. apply NoDup_cons_iff in ND as [N _]. apply N. rewrite B at 1. rewrite last_cons by discriminate. apply last_In. discriminate.
  - rewrite E in E'. destruct k1 as [|z k1]; cbn [app] in E'.
    + injection E' as ->. rewrite E in *. destruct k2 as [|u k2]; [cbn in L; lia|]. apply NoDup_cons_iff in ND as [_ ND]. apply NoDup_cons_iff in ND as [N _]. apply N. rewrite A at 1. rewrite !last_cons by discriminate. apply last_In. discriminate.
    + injection E' as <- ->. rewrite E in ND. apply NoDup_cons_iff in ND as [N _]. apply N. apply in_or_app. right. cbn. auto.
  - rewrite E' in E. destruct l1 as [|z l1]; cbn [app] in E.
    + injection E as ->. rewrite E' in *. destruct l2 as [|u l2]; [cbn in L; lia|]. apply NoDup_cons_iff in ND as [_ ND]. apply NoDup_cons_iff in ND as [N _]. apply N. rewrite B at 1. rewrite !last_cons by discriminate. apply last_In. discriminate.
    + injection E as <- ->. rewrite E' in ND. apply NoDup_cons_iff in ND as [N _]. apply N. apply in_or_app. right. cbn. auto.
  - rewrite E in E', ND. assert (Q : l1 = k1 ++ [b] /\ b :: l2 = k2). { apply nodup_pos with (c := a); auto. rewrite E', <- app_assoc. reflexivity. } destruct Q as [-> _]. rewrite <- app_assoc in ND. cbn [app] in ND. apply NoDup_remove_2 in ND. apply ND. apply in_or_app. right. cbn. auto.
Qed.
Lemma classic_ex (L : list (RV * RV)) p : (exists a b, In (a, b) L /\ turn a b p < 0) \/ forall a b, In (a, b) L -> 0 <= turn a b p.
Proof.
  induction L as [|[a b] L IH]; [right; intros a b []|]. destruct (Rlt_dec (turn a b p) 0); [left; exists a, b; cbn; auto|]. destruct IH as [(x & y & I & N)|A]; [left; exists x, y; cbn; auto|]. right. intros x y [[= <- <-]|I]; [lra|auto].
Qed.
Section Convex.
Variable vs : list RV.
Hypothesis CV : convex_ccw vs.
Lemma cv_ne a b : In (a, b) (ring vs) -> a <> b.
Proof. intros I ->. destruct CV as (L & ND & _). apply (ring_len2 vs b b ND L I I). Qed.
Lemma cv_on a b : In (a, b) (ring vs) -> 0 < dist2 a b.
Proof. intros I. pose proof (dist_pos a b (cv_ne a b I)). rewrite <- dist_sq. nra. Qed.
(** every edge has a vertex on its left *)
Lemma cv_left a b : In (a, b) (ring vs) -> exists v, In v vs /\ 0 < turn a b v.
Proof.
  intros I. destruct CV as (_ & _ & T & c & d & w & J & W & P).
  assert (X : (exists v, In v vs /\ 0 < turn a b v) \/ forall v, In v vs -> turn a b v = 0).
  { clear W. revert T. intros T. assert (G : forall l, incl l vs -> (exists v, In v l /\ 0 < turn a b v) \/ forall v, In v l -> turn a b v = 0).
    { induction l as [|v l IH]; intros S; [right; intros v []|]. destruct (Rlt_dec 0 (turn a b v)) as [L|L]; [left; exists v; cbn; auto|]. destruct IH as [(y & Y & L')|Z]; [intros y Y; apply S; cbn; auto|left; exists y; cbn; auto|].
      right. intros y [<-|Y]; [|auto]. assert (0 <= turn a b v) by (apply (T a b v I), S; cbn; auto). lra. }
    destruct (G vs (fun x H => H)) as [(v & Y & L)|Z]; eauto. }
  destruct X as [X|Z]; [exact X|exfalso]. destruct (ring_in vs c d J) as [Ic Id]. pose proof (Z c Ic) as Zc. pose proof (Z d Id) as Zd. pose proof (Z w W) as Zw. pose proof (cv_on a b I) as D.
  assert (E1 : (vx b - vx a) * turn c d w = (vx d - vx c) * (turn a b w - turn a b c) - (vx w - vx c) * (turn a b d - turn a b c)) by (unfold turn; ring).
  assert (E2 : (vy b - vy a) * turn c d w = (vy d - vy c) * (turn a b w - turn a b c) - (vy w - vy c) * (turn a b d - turn a b c)) by (unfold turn; ring).
  rewrite Zc, Zd, Zw in E1, E2. unfold dist2 in D. assert (vx b - vx a = 0) by nra. assert (vy b - vy a = 0) by nra. nra.
Qed.
Lemma in_line a b x : In (a, b) (ring vs) -> turn a b x = 0 -> exists s, x = seg_point a b s.
Proof.
  intros I T. pose proof (cv_on a b I) as N. set (n := dist2 a b) in *. exists (((vx x - vx a) * (vx b - vx a) + (vy x - vy a) * (vy b - vy a)) / n).
  set (k := (vx x - vx a) * (vx b - vx a) + (vy x - vy a) * (vy b - vy a)). assert (K : k / n * n = k) by (field; lra). set (s := k / n) in *.
  unfold turn in T. apply vec_eq; unfold seg_point; cbn [vx vy]; apply Rmult_eq_reg_r with n; try lra.
  - transitivity (vx a * n + (vx b - vx a) * (s * n)); [|ring]. rewrite K. unfold k, n, dist2.
    assert (T' : (vy b - vy a) * ((vx b - vx a) * (vy x - vy a) - (vy b - vy a) * (vx x - vx a)) = 0) by (rewrite T; ring). lra.
  - transitivity (vy a * n + (vy b - vy a) * (s * n)); [|ring]. rewrite K. unfold k, n, dist2.
    assert (T' : (vx b - vx a) * ((vx b - vx a) * (vy x - vy a) - (vy b - vy a) * (vx x - vx a)) = 0) by (rewrite T; ring). lra.
Qed.
(** an edge that does not turn goes straight on *)
Lemma cv_flat a b d : In (a, b) (ring vs) -> In (b, d) (ring vs) -> turn a b d = 0 -> exists k, 0 < k /\ vminus d b = vscale k (vminus b a).
Proof.
  intros I J Z. destruct (in_line a b d I Z) as (s & ->). exists (s - 1). split; [|unfold vminus, vscale, seg_point; apply vec_eq; cbn [vx vy]; ring].
  destruct (cv_left a b I) as (v & V & P). destruct CV as (_ & _ & T & _). specialize (T _ _ v J V). assert (E : turn b (seg_point a b s) v = (s - 1) * turn a b v) by (unfold turn, seg_point; cbn [vx vy]; ring). rewrite E in T.
  assert (NE := cv_ne _ _ J). destruct (Req_dec s 1) as [->|]; [|nra]. exfalso. apply NE. destruct b as [bx by0]. unfold seg_point. cbn [vx vy]. f_equal; ring.
Qed.
Lemma region_convex : convex (region vs).
Proof.
  intros p q x P Q (s & S & ->) a b I. specialize (P a b I). specialize (Q a b I). replace (turn a b (seg_point p q s)) with ((1 - s) * turn a b p + s * turn a b q) by (unfold turn, seg_point; cbn; ring). nra.
Qed.
Lemma vertex_region v : In v vs -> region vs v.
Proof.
  intros V a b I. destruct CV as (_ & _ & T & _). now apply T.
Qed.
Lemma boundary_region x : boundary vs x -> region vs x.
Proof. intros (a & b & I & S). apply (region_convex a b x); auto; apply vertex_region; now apply ring_in in I. Qed.
(** a point of the region in line with an edge is on an edge in that line *)
Definition on_line_edge (a b x : RV) : Prop := exists u v k, In (u, v) (ring vs) /\ on_segment u v x /\ 0 < k /\ forall y, turn u v y = k * turn a b y.
Definition ahead (e : RV) (a : RV) : list RV := filter (fun v => Rltb (inner a e) (inner v e)) vs.
Lemma filter_fewer (f g : RV -> bool) : forall l x, In x l -> f x = true -> g x = false -> (forall y, g y = true -> f y = true) -> (length (filter g l) < length (filter f l))%nat.
Proof.
  intros l x. assert (LE : forall m : list RV, (forall y, g y = true -> f y = true) -> (length (filter g m) <= length (filter f m))%nat).
  { induction m as [|y m IH]; intros H; cbn [filter]; [reflexivity|]. specialize (IH H). destruct (g y) eqn:G; [rewrite (H y G); cbn [length]; lia|]. destruct (f y); cbn [length]; lia. }
  induction l as [|y l IH]; intros J F G H; [destruct J|]. cbn [filter]. destruct J as [->|J].
  - rewrite F, G. cbn [length]. specialize (LE l H). lia.
  - specialize (IH J F G H). destruct (g y) eqn:Gy; [rewrite (H y Gy); cbn [length]; lia|]. destruct (f y); cbn [length]; lia.
Qed.
Lemma between_on a b x s : x = seg_point a b s -> 0 <= s <= 1 -> on_segment a b x.
Proof. intros E S. exists s. auto. Qed.
Lemma turn_line a b u v k : vminus v u = vscale k (vminus b a) -> turn a b u = 0 -> forall y, turn u v y = k * turn a b y.
Proof.
  intros E Z y. assert (E1 := f_equal vx E). assert (E2 := f_equal vy E). unfold vminus, vscale in E1, E2. cbn [vx vy] in E1, E2. unfold turn in *. rewrite E1, E2.
  transitivity (k * (((vx b - vx a) * (vy y - vy a) - (vy b - vy a) * (vx y - vx a)) - ((vx b - vx a) * (vy u - vy a) - (vy b - vy a) * (vx u - vx a)))); [ring|rewrite Z; ring].
Qed.
Lemma walk_on : forall n a b k e x s, (length (ahead e a) <= n)%nat -> In (a, b) (ring vs) -> vminus b a = vscale k e -> 0 < k -> region vs x -> x = seg_point a b s -> 0 <= s -> on_line_edge a b x.
Proof.
  induction n as [|n IH]; intros a b k e x s HC I Ek K Rx Ex S.
  - exfalso. assert (In b (ahead e a)); [|destruct (ahead e a); [auto|cbn in HC; lia]]. unfold ahead. apply filter_In. split; [now apply ring_in in I|]. apply Rltb_true.
    assert (E1 := f_equal vx Ek). assert (E2 := f_equal vy Ek). unfold vminus, vscale in E1, E2. cbn [vx vy] in E1, E2. unfold inner. assert (D := cv_on a b I). unfold dist2 in D. nra.
  - destruct (Rle_dec s 1) as [L|L]. { exists a, b, 1. split; auto. split; [eapply between_on; eauto|]. split; [lra|]. intros y; ring. }
    destruct (ring_succ vs a b I) as (d & J). assert (Z : turn a b d = 0).
    { assert (P := Rx b d J). assert (Q : 0 <= turn a b d) by (apply (vertex_region d); auto; now apply ring_in in J). rewrite Ex in P. replace (turn b d (seg_point a b s)) with ((1 - s) * turn a b d) in P by (unfold turn, seg_point; cbn; ring). nra. }
    destruct (cv_flat a b d I J Z) as (m & M & Em). assert (TL := turn_line a b b d m Em ltac:(unfold turn; ring)).
    destruct (IH b d (m * k) e x ((s - 1) / m)) as (u & v & k' & U1 & U2 & U3 & U4); auto.
    + assert (LT : (length (ahead e b) < length (ahead e a))%nat); [|lia]. assert (GT : inner a e < inner b e).
      { assert (E1 := f_equal vx Ek). assert (E2 := f_equal vy Ek). unfold vminus, vscale in E1, E2. cbn [vx vy] in E1, E2. unfold inner. assert (D := cv_on a b I). unfold dist2 in D. nra. }
      unfold ahead. apply (filter_fewer _ _ vs b); [now apply ring_in in I|now apply Rltb_true|apply Rltb_false; lra|]. intros y Y. rbool. lra.
    + rewrite Em, Ek. unfold vscale. cbn [vx vy]. f_equal; ring.
    + nra.
    + assert (E1 := f_equal vx Em). assert (E2 := f_equal vy Em). unfold vminus, vscale in E1, E2. cbn [vx vy] in E1, E2. rewrite Ex. unfold seg_point. apply vec_eq; cbn [vx vy]; [rewrite E1|rewrite E2]; field; lra.
    + apply Rmult_le_pos; [lra|left; apply Rinv_0_lt_compat; lra].
    + exists u, v, (k' * m). split; auto. split; auto. split; [nra|]. intros y. rewrite U4, TL. ring.
Qed.
Definition behind (e : RV) (a : RV) : list RV := filter (fun v => Rltb (inner v e) (inner a e)) vs.
Lemma walk_back : forall n a b k e x s, (length (behind e b) <= n)%nat -> In (a, b) (ring vs) -> vminus b a = vscale k e -> 0 < k -> region vs x -> x = seg_point a b s -> s <= 1 -> on_line_edge a b x.
Proof.
  induction n as [|n IH]; intros a b k e x s HC I Ek K Rx Ex S.
  - exfalso. assert (In a (behind e b)); [|destruct (behind e b); [auto|cbn in HC; lia]]. unfold behind. apply filter_In. split; [now apply ring_in in I|]. apply Rltb_true.
    assert (E1 := f_equal vx Ek). assert (E2 := f_equal vy Ek). unfold vminus, vscale in E1, E2. cbn [vx vy] in E1, E2. unfold inner. assert (D := cv_on a b I). unfold dist2 in D. nra.
  - destruct (Rle_dec 0 s) as [L|L]. { exists a, b, 1. split; auto. split; [eapply between_on; eauto|]. split; [lra|]. intros y; ring. }
    destruct (ring_pred vs a b I) as (z & J). assert (Z : turn z a b = 0).
    { assert (P := Rx z a J). assert (Q : 0 <= turn z a b) by (apply (vertex_region b); auto; now apply ring_in in I). rewrite Ex in P. replace (turn z a (seg_point a b s)) with (s * turn z a b) in P by (unfold turn, seg_point; cbn; ring). nra. }
    destruct (cv_flat z a b J I Z) as (m & M & Em). assert (E1 := f_equal vx Em). assert (E2 := f_equal vy Em). unfold vminus, vscale in E1, E2. cbn [vx vy] in E1, E2.
    assert (Em' : vminus a z = vscale (/ m) (vminus b a)) by (unfold vminus, vscale; apply vec_eq; cbn [vx vy]; [rewrite E1|rewrite E2]; field; lra).
    assert (Z' : turn a b z = 0) by (rewrite <- Z; unfold turn; ring). assert (TL := turn_line a b z a (/ m) Em' Z').
    assert (IM : 0 < / m) by (apply Rinv_0_lt_compat; lra).
    destruct (IH z a (/ m * k) e x (1 + s * m)) as (u & v & k' & U1 & U2 & U3 & U4); auto.
    + assert (LT : (length (behind e a) < length (behind e b))%nat); [|lia]. assert (GT : inner a e < inner b e).
      { assert (F1 := f_equal vx Ek). assert (F2 := f_equal vy Ek). unfold vminus, vscale in F1, F2. cbn [vx vy] in F1, F2. unfold inner. assert (D := cv_on a b I). unfold dist2 in D. nra. }
      unfold behind. apply (filter_fewer _ _ vs a); [now apply ring_in in I|now apply Rltb_true|apply Rltb_false; lra|]. intros y Y. rbool. lra.
    + rewrite Em', Ek. unfold vscale. cbn [vx vy]. f_equal; ring.
    + nra.
    + rewrite Ex. unfold seg_point. apply vec_eq; cbn [vx vy]; [rewrite E1|rewrite E2]; ring.
    + nra.
    + exists u, v, (k' * / m). split; auto. split; auto. split; [nra|]. intros y. rewrite U4, TL. ring.
Qed.
Lemma tight_edge a b x : In (a, b) (ring vs) -> region vs x -> turn a b x = 0 -> on_line_edge a b x.
Proof.
  intros I Rx T. destruct (in_line a b x I T) as (s & E). assert (U : vminus b a = vscale 1 (vminus b a)) by (unfold vscale, vminus; cbn [vx vy]; f_equal; ring).
  destruct (Rle_dec s 1); [eapply walk_back with (s := s)|eapply walk_on with (s := s)]; eauto; lra.
Qed.
(** from a point outside to a point of the region the segment crosses the boundary *)
Lemma enter (L : list (RV * RV)) p q : (forall a b, In (a, b) L -> 0 <= turn a b q) -> (exists a b, In (a, b) L /\ turn a b p < 0) ->
  exists s, 0 <= s <= 1 /\ (forall a b, In (a, b) L -> 0 <= turn a b (seg_point p q s)) /\ exists a b, In (a, b) L /\ turn a b (seg_point p q s) = 0 /\ turn a b p < 0.
Proof.
  assert (AF : forall a b s, turn a b (seg_point p q s) = (1 - s) * turn a b p + s * turn a b q) by (intros; unfold turn, seg_point; cbn; ring).
  assert (CR : forall a b s, 0 <= s <= 1 -> turn a b (seg_point p q s) < 0 -> 0 <= turn a b q -> exists s', s <= s' <= 1 /\ turn a b (seg_point p q s') = 0 /\ turn a b p < 0).
  { intros a b s S N Q. rewrite AF in N. set (f := turn a b p) in *. set (g := turn a b q) in *. assert (F : f < 0) by nra. exists (f / (f - g)). assert (D : f - g < 0) by lra.
    assert (E : f / (f - g) * (f - g) = f) by (field; lra). set (k := f / (f - g)) in *. split; [split; nra|]. rewrite AF. fold f g. split; [nra|auto]. }
  induction L as [|[a b] L IH]; intros Q (a0 & b0 & I0 & N0); [destruct I0|].
  assert (QL : forall a b, In (a, b) L -> 0 <= turn a b q) by (intros; apply Q; right; auto). assert (Qh : 0 <= turn a b q) by (apply Q; left; auto).
  destruct (classic_ex L p) as [(a1 & b1 & I1 & N1)|NN].
  - destruct (IH QL) as (s & S & A & (a2 & b2 & I2 & Z2 & W2)); [eauto|]. destruct (Rle_dec 0 (turn a b (seg_point p q s))) as [G|G].
    + exists s. split; auto. split; [intros x y [[= <- <-]|J]; auto|]. exists a2, b2. split; [right; auto|auto].
    + destruct (CR a b s S) as (s' & S' & Z' & W'); auto; [lra|]. exists s'. split; [lra|]. split.
      * intros x y [[= <- <-]|J]; [lra|]. specialize (A x y J). specialize (QL x y J). rewrite AF in *. nra.
      * exists a, b. split; [left; auto|auto].
  - assert (Nh : turn a b p < 0). { destruct I0 as [[= <- <-]|I0]; auto. specialize (NN a0 b0 I0). lra. }
    assert (S0 : turn a b (seg_point p q 0) < 0) by (rewrite AF; lra). destruct (CR a b 0 ltac:(lra) S0 Qh) as (s' & S' & Z' & W'). exists s'. split; [lra|]. split.
    + intros x y [[= <- <-]|J]; [lra|]. specialize (NN x y J). specialize (QL x y J). rewrite AF. nra.
    + exists a, b. split; [left; auto|auto].
Qed.
End Convex.
