(** EachBody with a callback that activates only bodies that are awake. *)
From Coq Require Import List Arith NArith Bool Lia.
From Verif Require Import SpecSpace.
From Verif.Model Require Import HashSet Space SpaceCb.
From Verif.Proofs Require Import Util SpaceLib SpaceInv SpaceAct SpaceOps SpaceReach SpaceTop SpaceCbPf.
Import ListNotations.

Section EachCb.
Context {T : Type} `{Time T}.
Notation Sp := (Space T).
Implicit Types (s t u : Sp) (b x : nat).

(** only idle times differ *)
Definition Idle t t' : Prop := exists B, t' = set_b t B /\ forall y, exists i, B y = b_idle (sp_b t y) i.
Lemma idle_refl t : Idle t t.
Proof. exists (sp_b t). split; [now destruct t|]. intros y. exists (sb_idle (sp_b t y)). now destruct (sp_b t y). Qed.
Lemma idle_trans t t1 t2 : Idle t t1 -> Idle t1 t2 -> Idle t t2.
Proof. intros (B & -> & F) (C & -> & G). exists C. split; [reflexivity|]. intros y. destruct (G y) as [i ->]. ss. destruct (F y) as [j ->]. exists i. reflexivity. Qed.
Lemma idle_upd t b i : Idle t (upd_b t b (b_idle (bod t b) i)).
Proof. exists (upd (sp_b t) b (b_idle (sp_b t b) i)). split; [reflexivity|]. intros y. unfold upd. destruct (Nat.eqb y b) eqn:E; [apply Nat.eqb_eq in E as ->; now exists i|]. exists (sb_idle (sp_b t y)). now destruct (sp_b t y). Qed.
Lemma idle_next t t' y : Idle t t' -> sb_next (sp_b t' y) = sb_next (sp_b t y). Proof. intros (B & -> & F). ss. destruct (F y) as [i ->]. reflexivity. Qed.
Lemma idle_root t t' y : Idle t t' -> sb_root (sp_b t' y) = sb_root (sp_b t y). Proof. intros (B & -> & F). ss. destruct (F y) as [i ->]. reflexivity. Qed.
Lemma idle_members n : forall t t' p, Idle t t' -> members n t' p = members n t p.
Proof. induction n as [|n IH]; intros t t' [q|] I; cbn [members]; auto. unfold bod. rewrite (idle_next _ _ q I), (IH t t') by auto. reflexivity. Qed.
Lemma idle_components l : forall t t', Idle t t' -> components t' l = components t l.
Proof. induction l as [|r l IH]; intros t t' I; cbn [components]; auto. rewrite (idle_members _ t t') by auto. rewrite (IH t t') by auto. destruct I as (B & -> & _). reflexivity. Qed.
Lemma idle_sleep t t' : Idle t t' -> sp_sleep t' = sp_sleep t. Proof. now intros (B & -> & _). Qed.
Lemma idle_nb t t' : Idle t t' -> sp_nb t' = sp_nb t. Proof. now intros (B & -> & _). Qed.
Lemma touch_idle_all b l : forall t, exists t', each (touch_idle b) t l = Some t' /\ Idle t t' /\ forall k, each (touch_idle b) (set_locked t k) l = Some (set_locked t' k).
Proof.
  induction l as [|x l IH]; intros t; cbn [each]; [exists t; split; [reflexivity|]; split; [apply idle_refl|reflexivity]|]. unfold touch_idle at 1 3. change (arb_other (set_locked t ?k)) with (arb_other t). change (is_stat (set_locked t ?k)) with (is_stat t).
  set (o := arb_other t b x). destruct (is_stat t o).
  - destruct (IH t) as (t' & E & I & K). exists t'. split; [exact E|]. split; [exact I|]. intros k. change (is_stat (set_locked t k) o) with (is_stat t o). apply K.
  - destruct (IH (upd_b t o (b_idle (bod t o) t0))) as (t' & E & I & K). exists t'. split; [exact E|]. split; [eapply idle_trans; [apply idle_upd|exact I]|]. intros k. apply K.
Qed.
Lemma act_awake t b : sb_root (sp_b t b) = None -> exists t', activate t b = Some t' /\ Idle t t' /\ forall k, activate (set_locked t k) b = Some (set_locked t' k).
Proof.
  intros R. unfold activate. change (is_dyn (set_locked t ?k) b) with (is_dyn t b). destruct (negb (is_dyn t b)); [exists t; split; [reflexivity|]; split; [apply idle_refl|intros k; destruct t; reflexivity]|].
  assert (I1 := idle_upd t b t0). set (t1 := upd_b t b _) in *. cbv zeta.
  assert (R1 : sb_root (bod t1 b) = None) by (unfold bod; now rewrite (idle_root _ _ b I1)). rewrite R1.
  destruct (touch_idle_all b (sb_arbs (bod t1 b)) t1) as (t' & E & I & K). exists t'. split; [exact E|]. split; [eapply idle_trans; eauto|]. intros k.
  change (upd_b (set_locked t k) b (b_idle (bod (set_locked t k) b) t0)) with (set_locked t1 k). change (bod (set_locked t1 k)) with (bod t1). rewrite R1. apply K.
Qed.
Lemma acts_awake l : forall t, (forall x, In x l -> sb_root (sp_b t x) = None) -> exists t', each activate t l = Some t' /\ Idle t t' /\ forall k, each activate (set_locked t k) l = Some (set_locked t' k).
Proof.
  induction l as [|x l IH]; intros t A; cbn [each]; [exists t; split; [reflexivity|]; split; [apply idle_refl|reflexivity]|].
  destruct (act_awake t x) as (t1 & E1 & I1 & K1); [apply A; cbn; auto|]. rewrite E1. destruct (IH t1) as (t2 & E2 & I2 & K2); [intros y Hy; rewrite (idle_root _ _ y I1); apply A; cbn; auto|].
  exists t2. split; [exact E2|]. split; [eapply idle_trans; eauto|]. intros k. rewrite K1. apply K2.
Qed.
Section F.
Variable f : nat -> list nat.
Definition awake t := forall b x, In x (f b) -> sb_root (sp_b t x) = None.
Lemma awake_idle t t' : Idle t t' -> awake t -> awake t'.
Proof. intros I A b x Hx. rewrite (idle_root _ _ x I). eauto. Qed.
Lemma visit_acts l : forall t, visit_cb f t l = each activate t (flat_map f l).
Proof. induction l as [|b l IH]; intros t; cbn [visit_cb flat_map]; [reflexivity|]. rewrite each_app. destruct (each activate t (f b)); auto. Qed.
Lemma flat_awake t m : awake t -> forall x, In x (flat_map f m) -> sb_root (sp_b t x) = None.
Proof. intros A x Hx. apply in_flat_map in Hx as (b & _ & Hx). eauto. Qed.
Lemma walk_acts n : forall t p m, awake t -> members n t p = Some m -> exists t', each activate t (flat_map f m) = Some t' /\ Idle t t' /\ walk_cb n f t p = Some (m, t').
Proof.
  induction n as [|n IH]; intros t [b|] m A; cbn [members walk_cb]; try discriminate; try (intros [= <-]; exists t; split; [reflexivity|]; split; [apply idle_refl|reflexivity]).
  destruct (members n t (sb_next (bod t b))) as [l|] eqn:E; [|discriminate]. intros [= <-]. cbn [flat_map]. rewrite each_app. destruct (acts_awake (f b) t) as (t1 & E1 & I1 & _); [intros x; apply A|]. rewrite E1.
  destruct (IH t1 (sb_next (bod t b)) l) as (t2 & E2 & I2 & W); [eapply awake_idle; eauto|rewrite (idle_members _ t t1); auto|]. rewrite W. exists t2. split; [exact E2|]. split; [eapply idle_trans; eauto|reflexivity].
Qed.
Lemma comps_acts n : forall k arr t m, awake t -> sp_sleep t = arr -> n + k = length arr -> components t (skipn k arr) = Some m ->
  exists t', each activate t (flat_map f m) = Some t' /\ Idle t t' /\ comps_cb n k arr f t = Some (m, t').
Proof.
  induction n as [|n IH]; intros k arr t m A S L C; cbn [comps_cb].
  - rewrite skipn_all2 in C by lia. injection C as <-. exists t. split; [reflexivity|]. split; [apply idle_refl|reflexivity].
  - assert (SK : skipn k arr = nth k arr 0 :: skipn (Datatypes.S k) arr).
    { clear - L. revert k L. induction arr as [|a arr IH]; intros [|k] L; cbn [length skipn nth] in *; try lia; [reflexivity|]. apply IH. lia. }
    rewrite SK in C. cbn [components] in C. destruct (members (sp_nb t) t (Some (nth k arr 0))) as [c|] eqn:E; [|discriminate]. destruct (components t (skipn (Datatypes.S k) arr)) as [m'|] eqn:E'; [|discriminate]. injection C as <-.
    destruct (walk_acts _ _ _ _ A E) as (t1 & E1 & I1 & W). rewrite W. unfold backing. rewrite (idle_sleep _ _ I1), S, skipn_all2, app_nil_r by lia.
    destruct (IH (Datatypes.S k) arr t1 m') as (t2 & E2 & I2 & W2); [eapply awake_idle; eauto|now rewrite (idle_sleep _ _ I1)|lia|now rewrite (idle_components _ t t1)|]. rewrite W2.
    exists t2. split; [rewrite flat_map_app, each_app, E1; exact E2|]. split; [eapply idle_trans; eauto|reflexivity].
Qed.
Lemma each_body_acts s l : sp_locked s = 0 -> sp_roused s = [] -> awake s -> each_body s = Some l ->
  exists s', each activate s (flat_map f l) = Some s' /\ Idle s s' /\ each_body_cb f s = Some (l, s').
Proof.
  intros Z Ro A E. unfold each_body in E. destruct (components s (sp_sleep s)) as [m|] eqn:C; [|discriminate]. injection E as <-. unfold each_body_cb. rewrite !visit_acts. unfold lock. rewrite Z.
  rewrite !flat_map_app, !each_app. destruct (acts_awake (flat_map f (sp_dyn s)) s) as (s1 & E1 & I1 & K1); [now apply flat_awake|]. rewrite E1, K1. assert (A1 := awake_idle _ _ I1 A). rewrite visit_acts.
  destruct (acts_awake (flat_map f (sp_stat s)) s1) as (s2 & E2 & I2 & K2); [now apply flat_awake|]. rewrite each_app, E2, K2. assert (A2 := awake_idle _ _ I2 A1). assert (I12 := idle_trans _ _ _ I1 I2).
  destruct (comps_acts (length (sp_sleep s)) 0 (sp_sleep s) (set_locked s2 1) m) as (s3 & E3 & I3 & W).
  - exact A2.
  - rewrite <- (idle_sleep _ _ I12). reflexivity.
  - lia.
  - cbn [skipn]. rewrite <- C, <- (idle_components (sp_sleep s) _ _ I12). clear. generalize (sp_sleep s). intros l. assert (MM : forall n p, members n (set_locked s2 1) p = members n s2 p). { induction n as [|n IH]; intros [q|]; cbn [members]; auto. rewrite IH. reflexivity. } induction l as [|r l IH]; cbn [components]; auto. rewrite MM, IH. reflexivity.
  - change (sp_sleep (set_locked s2 1)) with (sp_sleep s2). rewrite (idle_sleep _ _ I12), W. destruct (acts_awake (flat_map f m) s2) as (s4 & E4 & I4 & K4); [now apply flat_awake|]. rewrite E4. rewrite K4 in E3. injection E3 as <-.
    exists s4. split; [reflexivity|]. assert (I := idle_trans _ _ _ I12 I4). split; [exact I|]. unfold unlock. ss. cbn [pred Nat.eqb negb]. destruct I as (B & -> & F). ss. rewrite Ro. cbn [each]. f_equal. f_equal. destruct s. cbn in *. now subst.
Qed.
End F.
End EachCb.
