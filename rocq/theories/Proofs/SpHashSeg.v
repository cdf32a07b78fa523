(** The spatial hash: the walk of a segment query along the grid. *)
From Coq Require Import Reals ZArith Bool List Arith Lra Lia.
From Flocq Require Import Core.
From Verif Require Import Num Spec SpecSpaceHash.
From Verif.Model Require Import Vector BB SpaceHash.
From Verif.Proofs Require Import RTac SpHashPf SpHashPf2 SpHashPf3 SpHashFloor.
Import ListNotations.
Local Open Scope R_scope.
Notation obj s h := (h_obj (heap s h)).
Notation stp s h := (h_stamp (heap s h)).
(** a callback that notes the objects it is called with; what it returns may depend on all the calls *)
Definition flog (g : list nat -> nat -> R) (st : list nat) (o : nat) : list nat * R := (st ++ [o], g st o).
Section P.
Variable g : list nat -> nat -> R.
Notation hash := (hash R).
Lemma seg_log : forall l (s : hash) out t, exists t', seg_walk (flog g) s l out t = (let '(s', out', again) := walk s l None out in (s', out', t', again)) /\
  (exists new, snd (fst (walk s l None out)) = out ++ new) /\
  forall tau, tau < t -> (forall p o r, snd (fst (walk s l None out)) = p ++ o :: r -> tau < g p o) -> tau < t'.
Proof.
  induction l as [|h l IH]; intros s out t; cbn [seg_walk walk].
  { exists t. split; [reflexivity|]. split; [exists []; cbn; now rewrite app_nil_r|auto]. }
  rewrite orb_false_r. destruct (stp s h =? hstamp s)%nat; [apply IH|]. destruct (obj s h) as [o|].
  - unfold flog at 1. cbn [nmin numR]. destruct (IH (set_stamp s h (hstamp s)) (out ++ [o]) (Rmin t (g out o))) as (t' & E & (new & N) & L). exists t'. split; [exact E|]. split; [exists (o :: new); rewrite N, <- app_assoc; reflexivity|].
    intros tau A B. apply L; [|exact B]. apply Rmin_glb_lt; [exact A|]. apply (B out o new). rewrite N, <- app_assoc. reflexivity.
  - exists t. split; [reflexivity|]. split; [exists []; cbn; now rewrite app_nil_r|auto].
Qed.
Lemma helper_log (s : hash) i out : exists t', seg_helper (flog g) s i out = (let '(s', out') := query_cell None (s, out) i in (s', out', t')) /\
  (exists new, snd (query_cell None (s, out) i) = out ++ new) /\
  forall tau, tau < 1 -> (forall p o r, snd (query_cell None (s, out) i) = p ++ o :: r -> tau < g p o) -> tau < t'.
Proof.
  unfold seg_helper, query_cell, query_helper. destruct (seg_log (table s i) s out none_) as (t1 & E & N & L). rewrite E. destruct (walk s (table s i) None out) as [[s1 o1] again]. cbn [fst snd] in *. destruct N as (n1 & ->). destruct again.
  - destruct (remove_orphaned s1 (table s i)) as [s2 l]. destruct (seg_log l s2 (out ++ n1) t1) as (t2 & E2 & N2 & L2). rewrite E2. destruct (walk s2 l None (out ++ n1)) as [[s3 o3] ag]. cbn [fst snd] in *. exists t2. split; [reflexivity|]. destruct N2 as (n2 & ->). split; [exists (n1 ++ n2); now rewrite app_assoc|].
    intros tau A B. apply L2; [|exact B]. apply L; [exact A|]. intros p o r Q. apply (B p o (r ++ n2)). rewrite Q, <- app_assoc. reflexivity.
  - exists t1. split; [reflexivity|]. split; [exists n1; reflexivity|]. intros tau A B. apply L; auto.
Qed.
(** one coordinate of the walk: start [x0], direction [d]; not past cell [k] *)
Definition axis_ok (tau x0 d : R) (inc : Z) (dt next : R) (c k : Z) : Prop :=
  (0 < d /\ inc = 1%Z /\ dt * d = 1 /\ x0 + next * d = IZR c + 1 /\ (c <= k)%Z) \/
  (d < 0 /\ inc = (-1)%Z /\ dt * d = -1 /\ x0 + next * d = IZR c /\ (k <= c)%Z) \/
  (d = 0 /\ c = k /\ tau < next).
Lemma axis_not_done tau x0 d inc dt next c k : k = Zfloor (x0 + tau * d) -> axis_ok tau x0 d inc dt next c k -> c <> k -> next <= tau /\ (d <= 0 -> next < tau) /\ axis_ok tau x0 d inc dt (next + dt) (c + inc) k.
Proof.
  intros K A N. pose proof (Zfloor_lb (x0 + tau * d)) as L. pose proof (Zfloor_ub (x0 + tau * d)) as U. rewrite <- K in *. clear K. destruct A as [(D & -> & E & X & C)|[(D & -> & E & X & C)|(_ & C & _)]]; [| |contradiction].
  - assert (IZR c + 1 <= IZR k) by (rewrite <- plus_IZR; apply IZR_le; lia). assert (next <= tau) by (assert (next * d <= tau * d) by lra; nra). split; [assumption|]. split; [lra|]. left. repeat split; auto; [|lia]. rewrite plus_IZR. lra.
  - assert (IZR k <= IZR c - 1) by (rewrite <- minus_IZR; apply IZR_le; lia). assert (next < tau) by (assert (tau * d < next * d) by lra; nra). split; [lra|]. split; [auto|]. right. left. repeat split; auto; [|lia]. rewrite plus_IZR. lra.
Qed.
Lemma axis_done tau x0 d inc dt next c k : k = Zfloor (x0 + tau * d) -> axis_ok tau x0 d inc dt next c k -> c = k -> tau <= next /\ (tau = next -> d < 0 /\ x0 + tau * d = IZR c).
Proof.
  intros K A ->. pose proof (Zfloor_lb (x0 + tau * d)) as L. pose proof (Zfloor_ub (x0 + tau * d)) as U. rewrite <- K in *. clear K. destruct A as [(D & -> & E & X & C)|[(D & -> & E & X & C)|(_ & C & Q)]].
  - assert (tau < next) by (assert (tau * d < next * d) by lra; nra). split; lra.
  - assert (tau <= next) by (assert (next * d <= tau * d) by lra; nra). split; [assumption|]. intros ->. split; [exact D|lra].
  - split; lra.
Qed.
Variables (x0 y0 dx dy tau : R).
Hypothesis no_corner : ~ (dx < 0 /\ 0 < dy /\ (exists i, x0 + tau * dx = IZR i) /\ (exists j, y0 + tau * dy = IZR j)).
Let kx := Zfloor (x0 + tau * dx).
Let ky := Zfloor (y0 + tau * dy).
Lemma grid_ext : forall fuel cx cy xi yi dtx dty nh nv (s : hash) out t te s' out', Inv s -> fresh s -> (0 < numcells s)%nat -> reported s None out ->
  grid_walk (flog g) fuel cx cy xi yi dtx dty nh nv s out t te = Some (s', out') -> NoDup out' /\ (forall o, In o out' -> memb s o) /\ exists new, out' = out ++ new.
Proof.
  induction fuel as [|k IH]; intros cx cy xi yi dtx dty nh nv s out t te s' out' I Fr P Rp; cbn [grid_walk]; [discriminate|]. destruct (nltb t te).
  - destruct (helper_log s (slot (numcells s) (cx, cy)) out) as (r & E & (n1 & N1) & _). rewrite E. pose proof (cell_ok s (slot (numcells s) (cx, cy)) None out I Fr (slot_lt _ _ P) Rp) as C. destruct (query_cell None (s, out) (slot (numcells s) (cx, cy))) as [s1 o1]. destruct C as (A1 & A2 & A3 & A4 & A5 & A6 & A7 & _). cbn [snd] in N1. subst o1.
    assert (P1 : (0 < numcells s1)%nat) by (rewrite (k_n s s1 A3); exact P).
    destruct (nltb nv nh); intros G; eapply IH in G; eauto; destruct G as (G1 & G2 & n2 & ->); (split; [exact G1|]); (split; [intros o O; apply (k_m s s1 A3); now apply G2|]); exists (n1 ++ n2); now rewrite app_assoc.
  - intros [= <- <-]. destruct Rp as (N & M & _). split; [exact N|]. split; [intros o O; apply M in O as (h & L & _); now exists h|]. exists []. now rewrite app_nil_r.
Qed.
Lemma grid_visits : forall fuel cx cy xi yi dtx dty nh nv (s : hash) out t te s' out', Inv s -> fresh s -> (0 < numcells s)%nat -> reported s None out ->
  axis_ok tau x0 dx xi dtx nh cx kx -> axis_ok tau y0 dy yi dty nv cy ky -> t <= tau -> tau < te -> tau < 1 ->
  grid_walk (flog g) fuel cx cy xi yi dtx dty nh nv s out t te = Some (s', out') -> (forall p o r, out' = p ++ o :: r -> tau < g p o) ->
  forall o, cov s o (slot (numcells s) (kx, ky)) -> In o out'.
Proof.
  induction fuel as [|k IH]; intros cx cy xi yi dtx dty nh nv s out t te s' out' I Fr P Rp AX AY Lt Le L1; cbn [grid_walk]; [discriminate|].
  assert (B : nltb t te = true) by (unR; rbool; lra). rewrite B.
  destruct (helper_log s (slot (numcells s) (cx, cy)) out) as (r & E & (n1 & N1) & Lr). rewrite E. pose proof (cell_ok s (slot (numcells s) (cx, cy)) None out I Fr (slot_lt _ _ P) Rp) as C. destruct (query_cell None (s, out) (slot (numcells s) (cx, cy))) as [s1 o1]. destruct C as (A1 & A2 & A3 & A4 & A5 & A6 & A7 & _ & _ & A10). cbn [snd] in N1, Lr. subst o1.
  assert (P1 : (0 < numcells s1)%nat) by (rewrite (k_n s s1 A3); exact P). intros G Hg o Cv.
  assert (EXT : exists n2, out' = (out ++ n1) ++ n2) by (destruct (nltb nv nh); eapply grid_ext in G; eauto; destruct G as (_ & _ & n2 & Q); eauto).
  destruct EXT as (n2 & EXT).
  assert (Tr : tau < Rmin te r). { apply Rmin_glb_lt; [exact Le|]. apply Lr; [exact L1|]. intros p o' rr Q. apply (Hg p o' (rr ++ n2)). rewrite EXT, Q, <- app_assoc. reflexivity. }
  assert (Cv1 : cov s1 o (slot (numcells s1) (kx, ky))) by (rewrite (k_n s s1 A3); now apply (k_c s s1 A3)).
  assert (GOY : axis_ok tau y0 dy yi dty (nv + dty) (cy + yi) ky -> nv <= tau -> grid_walk (flog g) k cx (cy + yi) xi yi dtx dty nh (nadd nv dty) s1 (out ++ n1) nv (nmin te r) = Some (s', out') -> In o out').
  { intros Q1 Q2 Q3. eapply IH; [exact A1|exact A2|exact P1|exact A7|exact AX|exact Q1|exact Q2|exact Tr|exact L1|exact Q3|exact Hg|exact Cv1]. }
  assert (GOX : axis_ok tau x0 dx xi dtx (nh + dtx) (cx + xi) kx -> nh <= tau -> grid_walk (flog g) k (cx + xi) cy xi yi dtx dty (nadd nh dtx) nv s1 (out ++ n1) nh (nmin te r) = Some (s', out') -> In o out').
  { intros Q1 Q2 Q3. eapply IH; [exact A1|exact A2|exact P1|exact A7|exact Q1|exact AY|exact Q2|exact Tr|exact L1|exact Q3|exact Hg|exact Cv1]. }
  destruct (Z.eq_dec cx kx) as [Ex|Ex]; [destruct (Z.eq_dec cy ky) as [Ey|Ey]|].
  - subst cx cy. destruct Cv as (h & Lv & Q). rewrite EXT. apply in_or_app. left. apply A7. exists h. split; [unfold live; rewrite A5, A6; exact Lv|]. rewrite A4. apply (A10 h o); auto. discriminate.
  - destruct (axis_done _ _ _ _ _ _ _ _ eq_refl AX Ex) as [X1 X2]. destruct (axis_not_done _ _ _ _ _ _ _ _ eq_refl AY Ey) as (Y1 & Y2 & Y3).
    assert (Bv : nltb nv nh = true). { unR. rbool. destruct (Rlt_dec nv nh) as [|Z]; [assumption|exfalso]. assert (tau = nh) as Q1 by lra. assert (tau = nv) as Q2 by lra. destruct (X2 Q1) as [X3 X4]. apply no_corner. split; [exact X3|]. assert (0 < dy) as D by (destruct (Rlt_dec 0 dy); [assumption|specialize (Y2 ltac:(lra)); lra]). split; [exact D|]. split; [eauto|]. exists (cy + 1)%Z. rewrite plus_IZR. destruct AY as [(_ & _ & _ & Q & _)|[(Q & _)|(Q & _)]]; [rewrite Q2; exact Q|lra|lra]. }
    rewrite Bv in G.  apply GOY; assumption.
  - destruct (axis_not_done _ _ _ _ _ _ _ _ eq_refl AX Ex) as (X1 & X2 & X3). destruct (Z.eq_dec cy ky) as [Ey|Ey].
    + destruct (axis_done _ _ _ _ _ _ _ _ eq_refl AY Ey) as [Y1 Y2]. assert (Bv : nltb nv nh = false) by (unR; rbool; lra). rewrite Bv in G.  apply GOX; assumption.
    + destruct (axis_not_done _ _ _ _ _ _ _ _ eq_refl AY Ey) as (Y1 & Y2 & Y3).  destruct (nltb nv nh); [apply GOY|apply GOX]; assumption.
Qed.
End P.
(** the start of the walk *)
Lemma mfloor_R x : (mfloor x : R) = IZR (Zfloor x).
Proof. unfold mfloor. rewrite gfloor_R. reflexivity. Qed.
Lemma axis_start (a b tau : R) : 0 <= tau < 1 -> (b < a -> IZR (Zfloor a) <> a) -> (a = b -> IZR (Zfloor a) = a \/ 1 <= (a - IZR (Zfloor a)) * MaxFloat64) ->
  let '(inc, dt, next) := axis a b in axis_ok tau a (b - a) inc dt next (gfloor a) (Zfloor (a + tau * (b - a))).
Proof.
  intros T H1 H2. unfold axis. rewrite gfloor_R. pose proof (Zfloor_lb a) as La. pose proof (Zfloor_ub a) as Ua. unR. rewrite !mfloor_R. unfold Rltb, Reqb. destruct (Rlt_dec a b) as [L|L].
  - rewrite Rabs_pos_eq by lra. destruct (Req_EM_T (b - a) 0) as [Z|_]; [lra|]. cbn [negb]. assert (Ef : Zfloor (a + 1) = (Zfloor a + 1)%Z) by (apply Zfloor_imp; rewrite plus_IZR; cbn [Z.add]; rewrite !plus_IZR; lra). rewrite Ef, plus_IZR. destruct (Req_EM_T _ 0) as [Z|_]; [lra|]. cbn [negb]. left. split; [lra|]. split; [reflexivity|]. split; [field; lra|]. split; [field; lra|]. apply Zfloor_le. nra.
  - destruct (Req_dec a b) as [<-|N].
    + replace (a - a) with 0 by ring. rewrite Rabs_R0. destruct (Req_EM_T 0 0) as [_|Z]; [|lra]. cbn [negb]. right. right. split; [reflexivity|]. split; [f_equal; ring|]. destruct (Req_EM_T (a - IZR (Zfloor a)) 0) as [Z|Z]; cbn [negb]; [pose proof MaxFloat_big; lra|]. destruct (H2 eq_refl) as [Q|Q]; [lra|]. lra.
    + rewrite Rabs_left by lra. destruct (Req_EM_T (- (b - a)) 0) as [Z|_]; [lra|]. cbn [negb]. specialize (H1 ltac:(lra)). destruct (Req_EM_T (a - IZR (Zfloor a)) 0) as [Z|_]; [lra|]. cbn [negb]. right. left. split; [lra|]. split; [reflexivity|]. split; [field; lra|]. split; [field; lra|]. apply Zfloor_le. nra.
Qed.
(** the walk ends *)
Lemma axis_dt (a b : R) : let '(_, dt, _) := axis a b in 0 < dt.
Proof. unfold axis. unR. unfold Rltb, Reqb. destruct (Rlt_dec a b); destruct (Req_EM_T (Rabs (b - a)) 0) as [Z|Z]; cbn [negb]; try (pose proof MaxFloat_big; lra); (apply Rdiv_lt_0_compat; [lra|]; pose proof (Rabs_pos (b - a)); lra). Qed.
Lemma grid_ends {S} (f : S -> nat -> S * R) : forall fuel (nx ny : nat) cx cy xi yi dtx dty nh nv (s : hash R) st t te, te <= 1 -> 1 <= nh + INR nx * dtx -> 1 <= nv + INR ny * dty -> (nx + ny + 2 <= fuel)%nat ->
  grid_walk f fuel cx cy xi yi dtx dty nh nv s st t te <> None.
Proof.
  induction fuel as [|k IH]; intros nx ny cx cy xi yi dtx dty nh nv s st t te L X Y Fu; [lia|]. cbn [grid_walk]. destruct (nltb t te); [|discriminate]. destruct (seg_helper f s (slot (numcells s) (cx, cy)) st) as [[s1 st1] r].
  assert (L' : nmin te r <= 1) by (unR; eapply Rle_trans; [apply Rmin_l|exact L]).
  assert (ST : forall cx cy nh nv t', 1 <= t' -> (1 <= k)%nat -> grid_walk f k cx cy xi yi dtx dty nh nv s1 st1 t' (nmin te r) <> None). { intros ? ? ? ? t' T Kk. destruct k as [|k]; [lia|]. cbn [grid_walk]. assert (nltb t' (nmin te r) = false) as -> by (unR; rbool; lra). discriminate. }
  destruct (nltb nv nh) eqn:B.
  - destruct ny as [|ny]; [apply ST; [cbn [INR] in Y; lra|lia]|]. apply (IH nx ny); auto; [|lia]. rewrite S_INR in Y. unR. lra.
  - destruct nx as [|nx]; [apply ST; [cbn [INR] in X; lra|lia]|]. apply (IH nx ny); auto; [|lia]. rewrite S_INR in X. unR. lra.
Qed.
