(** C142: when a body counts as idle. *)
From Coq Require Import Reals ZArith Bool List Lra Psatz.
From Flocq Require Import IEEE754.BinarySingleNaN.
From Verif Require Import Num Spec SpecBody.
From Verif.Model Require Import Vector BB Transform Body Idle.
From Verif.Proofs Require Import RTac Geom BodyPf.
From Verif.Props Require Import BodyProps.
Import ListNotations.
Local Open Scope R_scope.

(** the speed up to which a body that does not spin is idle *)
Definition idle_speed (dv : R) (g : RV) (dt : R) : R := if Req_EM_T dv 0 then norm g * Rabs dt else Rabs dv.
Definition is_idle (dv : R) (g : RV) (dt : R) (b : Body R) : Prop :=
  b_m b * (norm (b_v b) * norm (b_v b)) + b_i b * (b_w b * b_w b) <= b_m b * (idle_speed dv g dt * idle_speed dv g dt).

Lemma norm_sq v : norm v * norm v = norm2 v.
Proof. unfold norm. apply sqrt_sqrt. unfold norm2. nra. Qed.
Lemma dvsq_eq dv g dt : idle_dvsq dv g dt = idle_speed dv g dt * idle_speed dv g dt.
Proof.
  unfold idle_dvsq, idle_speed. unR. destruct (Req_EM_T dv 0) as [->|N].
  - destruct (Reqb 0 0) eqn:E; rbool; [|congruence]. cbn. replace (norm g * Rabs dt * (norm g * Rabs dt)) with (norm g * norm g * (Rabs dt * Rabs dt)) by ring.
    rewrite norm_sq. rewrite <- Rabs_mult, (Rabs_pos_eq (dt * dt)) by nra. unfold vlensq, vdot, norm2. unR. ring.
  - destruct (Reqb dv 0) eqn:E; rbool; [congruence|]. cbn. rewrite <- Rabs_mult, Rabs_pos_eq by nra. reflexivity.
Qed.
Lemma limit_eq dv g dt (b : Body R) : idle_limit dv g dt b = b_m b * (idle_speed dv g dt * idle_speed dv g dt).
Proof. unfold idle_limit. cbv zeta. rewrite dvsq_eq. unR. destruct (Reqb _ 0) eqn:E; rbool; cbn; [rewrite E; ring|reflexivity]. Qed.
(** idle exactly when the energy is no more than at the idle speed; then the time is added, otherwise the count starts again *)
Theorem C142_tick : forall dv g dt (b : Body R),
  (is_idle dv g dt b -> b_idle (idle_tick dv g dt b) = b_idle b + dt) /\ (~ is_idle dv g dt b -> b_idle (idle_tick dv g dt b) = 0) /\
  upd_idle (idle_tick dv g dt b) (b_idle b) = b.
Proof.
  intros dv g dt b. unfold idle_tick, is_idle. rewrite limit_eq, C56_value, norm_sq. unR.
  destruct (Rltb _ _) eqn:E; rbool; (split; [|split]); intros; cbn; try reflexivity; try lra; destruct b; reflexivity.
Qed.
(** without spin: up to IdleSpeedThreshold, or, when that is 0, up to the speed one step of gravity gives *)
Theorem C142_speed : forall dv g dt (b : Body R), 0 < b_m b -> b_w b = 0 ->
  (dv <> 0 -> (is_idle dv g dt b <-> norm (b_v b) <= Rabs dv)) /\ (is_idle 0 g dt b <-> norm (b_v b) <= norm g * Rabs dt).
Proof.
  intros dv g dt b M W. unfold is_idle. rewrite W. pose proof (sqrt_pos (norm2 (b_v b))) as P. fold (norm (b_v b)) in P.
  assert (K : forall L, 0 <= L -> (b_m b * (norm (b_v b) * norm (b_v b)) + b_i b * (0 * 0) <= b_m b * (L * L) <-> norm (b_v b) <= L)).
  { intros L HL. set (n := norm (b_v b)) in *. split; intros D.
    - destruct (Rle_or_lt n L) as [|X]; [auto|]. exfalso. assert (L * L < n * n) by nra. pose proof (Rmult_lt_compat_l (b_m b) _ _ M H). lra.
    - assert (n * n <= L * L) by nra. pose proof (Rmult_le_compat_l (b_m b) _ _ (Rlt_le _ _ M) H). lra. }
  split; [intros N|]; unfold idle_speed.
  - destruct (Req_EM_T dv 0) as [|_]; [contradiction|]. apply K, Rabs_pos.
  - destruct (Req_EM_T 0 0) as [_|]; [|congruence]. apply K. pose proof (sqrt_pos (norm2 g)). fold (norm g) in *. pose proof (Rabs_pos dt). nra.
Qed.
(** at rest it always is; without gravity and threshold only then *)
Theorem C142_rest : forall dv g dt (b : Body R), 0 <= b_m b -> b_v b = mkV 0 0 -> b_w b = 0 -> is_idle dv g dt b.
Proof.
  intros dv g dt b M V W. unfold is_idle. rewrite V, W, norm_sq. unfold norm2. cbn. pose proof (Rle_0_sqr (idle_speed dv g dt)) as Q. unfold Rsqr in Q. nra.
Qed.
Theorem C142_only_rest : forall dt (b : Body R), 0 < b_m b -> 0 < b_i b -> (is_idle 0 (mkV 0 0) dt b <-> b_v b = mkV 0 0 /\ b_w b = 0).
Proof.
  intros dt b M I. split; [|intros [V W]; apply C142_rest; auto; lra]. unfold is_idle, idle_speed. destruct (Req_EM_T 0 0) as [_|]; [|congruence].
  replace (norm (mkV 0 0)) with 0 by (unfold norm, norm2; cbn; replace (0 * 0 + 0 * 0) with 0 by ring; now rewrite sqrt_0). rewrite norm_sq. unfold norm2.
  destruct (b_v b) as [x y]. cbn. intros D. pose proof (Rle_0_sqr x) as X. pose proof (Rle_0_sqr y) as Y. pose proof (Rle_0_sqr (b_w b)) as Z. unfold Rsqr in *.
  assert (x * x = 0) by nra. assert (y * y = 0) by nra. assert (b_w b * b_w b = 0) by nra. split; [f_equal|]; nra.
Qed.
(** A body falling freely from rest is idle while its speed is that of at most one step: at the first two calls of Step. *)
Theorem C142_free_fall : forall g dt k (b : Body R), 0 < b_m b -> b_w b = 0 -> g <> mkV 0 0 -> dt <> 0 -> 0 <= k -> b_v b = vscale (k * dt) g -> (is_idle 0 g dt b <-> k <= 1).
Proof.
  intros g dt k b M W G N K V. destruct (C142_speed 1 g dt b M W) as [_ ->]. rewrite V.
  replace (norm (vscale (k * dt) g)) with (k * (norm g * Rabs dt)).
  2:{ assert (E : norm2 (vscale (k * dt) g) = (k * Rabs dt) * (k * Rabs dt) * norm2 g).
      { replace (k * Rabs dt * (k * Rabs dt)) with (k * k * (Rabs dt * Rabs dt)) by ring. rewrite <- Rabs_mult, (Rabs_pos_eq (dt * dt)) by nra. unfold norm2, vscale. destruct g; cbn. ring. }
      assert (K0 : 0 <= k * Rabs dt) by (pose proof (Rabs_pos dt); nra). assert (K1 : 0 <= k * Rabs dt * (k * Rabs dt)) by nra.
      unfold norm. rewrite E, (sqrt_mult_alt _ _ K1), (sqrt_square _ K0). ring. }
  assert (P : 0 < norm g * Rabs dt).
  { apply Rmult_lt_0_compat; [|now apply Rabs_pos_lt]. unfold norm. apply sqrt_lt_R0. unfold norm2. destruct g as [x y]. cbn. pose proof (Rle_0_sqr x) as X. pose proof (Rle_0_sqr y) as Y. unfold Rsqr in *.
    destruct (Req_dec x 0) as [->|]; [destruct (Req_dec y 0) as [->|]; [congruence|]|]; nra. }
  split; intros D; [|nra]. destruct (Rle_or_lt k 1); [auto|nra].
Qed.

(** ** A history of steps: the velocity at each, and its length; newest first *)
Definition total (l : list R) : R := fold_right Rplus 0 l.
Fixpoint run (dv : R) (g : RV) (b : Body R) (h : list (RV * R * R)) : Body R :=
  match h with [] => b | e :: h => idle_step1 dv g (run dv g b h) e end.
Definition idle_at (dv : R) (g : RV) (b : Body R) (e : RV * R * R) : Prop := let '(v, w, dt) := e in is_idle dv g dt (upd_vel b v w).
Definition steps_of (h : list (RV * R * R)) : R := total (map snd h).
Lemma run_frame dv g b h : b_m (run dv g b h) = b_m b /\ b_i (run dv g b h) = b_i b.
Proof.
  induction h as [|[[v w] dt] h [IH1 IH2]]; cbn [run]; auto. unfold idle_step1, idle_tick. destruct (_ <? _)%num; cbn; auto.
Qed.
Lemma idle_frame dv g b c e : b_m b = b_m c -> b_i b = b_i c -> idle_at dv g b e -> idle_at dv g c e.
Proof. destruct e as [[v w] dt]. unfold idle_at, is_idle. cbn. now intros -> ->. Qed.
(** the idle time is the time since the last step at which the body was not idle *)
Theorem C142_idle_time : forall dv g b recent moved before, b_idle b = 0 -> Forall (idle_at dv g b) recent ->
  (before = [] /\ moved = [] \/ exists e, moved = [e] /\ ~ idle_at dv g b e) ->
  b_idle (run dv g b (recent ++ moved ++ before)) = steps_of recent.
Proof.
  intros dv g b recent moved before Z F D. induction F as [|[[v w] dt] r Hr F IH]; cbn [app].
  - destruct D as [[-> ->]|([[v w] dt] & -> & N)]; [exact Z|]. cbn [app run]. unfold idle_step1. destruct (C142_tick dv g dt (upd_vel (run dv g b before) v w)) as (_ & T & _).
    apply T. intros X. apply N. destruct (run_frame dv g b before). exact (idle_frame dv g (run dv g b before) b (v, w, dt) H H0 X).
  - cbn [run]. unfold idle_step1. destruct (C142_tick dv g dt (upd_vel (run dv g b (r ++ moved ++ before)) v w)) as (T & _ & _). rewrite T.
    + cbn [b_idle upd_vel]. rewrite IH. unfold steps_of, total. cbn [map fold_right snd]. ring.
    + destruct (run_frame dv g b (r ++ moved ++ before)) as [A1 A2]. exact (idle_frame dv g b (run dv g b (r ++ moved ++ before)) (v, w, dt) (eq_sym A1) (eq_sym A2) Hr).
Qed.
(** so an idle time that reaches the sleep threshold was spent idle, at the last steps, without a break *)
Corollary C142_asleep_means_idle : forall dv g b h thr, b_idle b = 0 -> 0 < thr -> thr <= b_idle (run dv g b h) ->
  exists recent older, h = recent ++ older /\ Forall (idle_at dv g b) recent /\ thr <= steps_of recent.
Proof.
  intros dv g b h thr Z P Q.
  assert (S : exists recent moved before, h = recent ++ moved ++ before /\ Forall (idle_at dv g b) recent /\ (before = [] /\ moved = [] \/ exists e, moved = [e] /\ ~ idle_at dv g b e)).
  { clear Q. induction h as [|e h (r & m & o & E & F & D)]; [exists [], [], []; auto|].
    destruct e as [[v w] dt]. assert (X : idle_at dv g b (v, w, dt) \/ ~ idle_at dv g b (v, w, dt)) by (unfold idle_at, is_idle; lra).
    destruct X as [X|X]; [exists ((v, w, dt) :: r), m, o; split; [now rewrite E|]; split; [now constructor|auto]|].
    exists [], [(v, w, dt)], h. split; [reflexivity|]. split; [constructor|]. right. eauto. }
  destruct S as (r & m & o & E & F & D). exists r, (m ++ o). split; auto. split; auto. rewrite E in Q. now rewrite (C142_idle_time dv g b r m o Z F D) in Q.
Qed.

(** ** binary64 *)
(** False of binary64: the heavy body (2^1023, still a dynamic body: below math.MaxFloat64) at speed 100 counts as idle with a
    threshold of 2: both products overflow to +Inf, which is not greater than itself *)
Definition fz : F := B754_zero false.
Definition two_1023 : F := F_of_Z (2 ^ 1023).
Definition heavy : Body F := mkBody two_1023 fz fz fz vzero vzero (mkV (F_of_Z 100) fz) vzero fz fz fz t_identity vzero fz [] fz.
Theorem C142_heavy_body_refuted : exists (b : Body F) dv dt, is_finite (b_m b) = true /\ nltb (b_m b) ninf = true /\ nltb dv (vlen (b_v b)) = true /\ nltb nzero dv = true /\ b_idle b = nzero /\ nltb nzero dt = true /\ neqb (b_idle (idle_tick dv vzero dt b)) dt = true.
Proof. exists heavy, (F_of_Z 2), (F_of_Z 1). repeat match goal with |- _ /\ _ => split end; try reflexivity; vm_compute; reflexivity. Qed.

Definition crate (v : RV) : Body R := mkBody 2 (1/2) 1 1 (mkV 0 0) (mkV 0 0) v (mkV 0 0) 0 0 0 t_identity (mkV 0 0) 0 [] 0.
(** resting, then kicked to speed 5, then three steps at speed 1, threshold 2 *)
Example C142_nonvacuous : b_idle (run 2 (mkV 0 (-10)) (crate (mkV 0 0)) [(mkV 0 1, 0, 1/60); (mkV 1 0, 0, 1/60); (mkV 0 1, 0, 1/60); (mkV 3 4, 0, 1/60); (mkV 0 0, 0, 1/60)]) = 3/60.
Proof.
  pose proof (C142_idle_time 2 (mkV 0 (-10)) (crate (mkV 0 0)) [(mkV 0 1, 0, 1/60); (mkV 1 0, 0, 1/60); (mkV 0 1, 0, 1/60)] [(mkV 3 4, 0, 1/60)] [(mkV 0 0, 0, 1/60)] eq_refl) as D.
  cbn [app] in D. rewrite D; [unfold steps_of; cbn; lra| |].
  - repeat constructor; unfold idle_at, is_idle, idle_speed; rewrite norm_sq; destruct (Req_EM_T 2 0); try lra; rewrite Rabs_pos_eq by lra; unfold norm2; cbn; lra.
  - right. eexists. split; [reflexivity|]. unfold idle_at, is_idle, idle_speed. rewrite norm_sq. destruct (Req_EM_T 2 0); try lra; rewrite Rabs_pos_eq by lra; unfold norm2; cbn; lra.
Qed.
Example C142_free_fall_nonvacuous : is_idle 0 (mkV 0 (-10)) (1/60) (crate (vscale (1 * (1/60)) (mkV 0 (-10)))) /\ ~ is_idle 0 (mkV 0 (-10)) (1/60) (crate (vscale (2 * (1/60)) (mkV 0 (-10)))).
Proof.
  assert (G : mkV 0 (-10) <> mkV 0 0) by (intros [= D]; lra).
  split; [apply (C142_free_fall (mkV 0 (-10)) (1/60) 1)|intros D; apply (C142_free_fall (mkV 0 (-10)) (1/60) 2) in D]; auto; cbn; try lra.
Qed.
Print Assumptions C142_tick. Print Assumptions C142_speed. Print Assumptions C142_only_rest. Print Assumptions C142_free_fall. Print Assumptions C142_idle_time. Print Assumptions C142_asleep_means_idle. Print Assumptions C142_heavy_body_refuted.
