(** C112-C114: whole steps. *)
From Coq Require Import Reals ZArith Bool List Lra Lia.
From Verif Require Import Num Spec SpecBody SpecSolver SpecStep.
From Verif.Model Require Import Vector BB Transform Body Solver Step.
From Verif.Proofs Require Import RTac Geom BodyPf SolverPf StepPf StepMech StepGround StepRest.
From Verif.Props Require Import SolverProps.
Import ListNotations.
Local Open Scope R_scope.

(** ** C112: a group of bodies that nothing connects with other bodies moves as one particle,
    whatever contacts and joints act inside it *)
(** one step: momentum is damped, gains weight and applied forces; the centre of mass moves with the velocity before the step *)
Theorem C112_step : forall se ids (s : Scene R) e, ev_dt e <> 0 -> isolated ids e -> group (sc_body s) ids -> moved ids (sc_dyn s) -> moved ids (ev_dyn e) ->
  let w := sc_body s in let w' := sc_body (step se s e) in let dt := ev_dt e in
  mass_of w' ids = mass_of w ids /\ force_on w' ids = mkV 0 0 /\ bias_momentum w' ids = mkV 0 0 /\
  momentum w' ids = vplus (vscale (npow (se_damping se) dt) (momentum w ids)) (vscale dt (vplus (vscale (mass_of w ids) (se_gravity se)) (force_on w ids))) /\
  moment_of_mass w' ids = vplus (moment_of_mass w ids) (vscale dt (vplus (momentum w ids) (bias_momentum w ids))).
Proof. intros se ids s e N I G M1 M2. exact (proj2 (step_group se ids s e N I G M1 M2)). Qed.
(** any number of steps, of any lengths, with any contacts and joints in each *)
Theorem C112_group_is_particle : forall se ids evs (s : Scene R), group (sc_body s) ids -> moved ids (sc_dyn s) ->
  force_on (sc_body s) ids = mkV 0 0 -> bias_momentum (sc_body s) ids = mkV 0 0 ->
  Forall (fun e => ev_dt e <> 0 /\ isolated ids e /\ moved ids (ev_dyn e)) evs ->
  let w := sc_body s in let w' := sc_body (steps se s evs) in
  (momentum w' ids, moment_of_mass w' ids) = fold_left (particle se (mass_of w ids)) (map ev_dt evs) (momentum w ids, moment_of_mass w ids).
Proof. intros se ids evs s G M F B E. exact (proj1 (steps_group se ids evs s G M F B E)). Qed.
(** without gravity and damping: the momentum never changes, the centre of mass moves uniformly *)
Theorem C112_uniform : forall se ids evs (s : Scene R), se_gravity se = mkV 0 0 -> se_damping se = 1 -> group (sc_body s) ids -> moved ids (sc_dyn s) ->
  force_on (sc_body s) ids = mkV 0 0 -> bias_momentum (sc_body s) ids = mkV 0 0 ->
  Forall (fun e => ev_dt e <> 0 /\ isolated ids e /\ moved ids (ev_dyn e)) evs ->
  let w := sc_body s in let w' := sc_body (steps se s evs) in let t := fold_right Rplus 0 (map ev_dt evs) in
  momentum w' ids = momentum w ids /\ moment_of_mass w' ids = vplus (moment_of_mass w ids) (vscale t (momentum w ids)).
Proof.
  intros se ids evs s Hg Hd G M F B E w w' t. pose proof (C112_group_is_particle se ids evs s G M F B E) as P. cbv zeta in P. fold w w' in P.
  assert (K : forall l P0 C0, fold_left (particle se (mass_of w ids)) l (P0, C0) = (P0, vplus C0 (vscale (fold_right Rplus 0 l) P0))).
  { induction l as [|d l IH]; intros P0 C0; cbn [fold_left fold_right].
    - f_equal. apply vec_eq; unfold vplus, vscale; cbn [vx vy]; ring.
    - unfold particle at 2. rewrite Hg, Hd. change (npow 1 d) with (Rpower 1 d). unfold Rpower. rewrite ln_1, Rmult_0_r, exp_0.
      rewrite IH. f_equal; apply vec_eq; unfold vplus, vscale; cbn [vx vy]; ring. }
  rewrite K in P. injection P as P1 P2. split; [exact P1|exact P2].
Qed.
(** concretely: two bodies in contact, joined by a motor, beside a third body resting on a fourth *)
Definition scene : Scene R := mkScene (fun i => match i with 0%nat => ball | 1%nat => crate | _ => body_at 1 1 9 9 0 0 0 end) [0; 1; 2]%nat [] [] (1 / 60).
Definition bump : Event R := mkEvent (1 / 60) [0; 1; 2]%nat [((0, 1)%nat, hit); ((2, 3)%nat, hit)] [((1, 0)%nat, (mkP 1000 (1/2) 10, JMotor (new_motor 5)))].
Lemma ball_dynamic : b_type ball = DYNAMIC /\ b_type crate = DYNAMIC.
Proof.
  assert (Big : 2 < MaxFloat64) by (unfold MaxFloat64; apply IZR_lt; vm_compute; reflexivity).
  assert (E : forall x : R, x <= 2 -> (x =? ninf)%num = false) by (intros x Hx; apply Reqb_false; change (ninf : R) with MaxFloat64; lra).
  split; unfold b_type, ball, crate, body_at; cbn [b_idle b_m]; rewrite !E by lra; reflexivity.
Qed.
Example C112_nonvacuous : group (sc_body scene) [0; 1]%nat /\ moved [0; 1]%nat (sc_dyn scene) /\ force_on (sc_body scene) [0; 1]%nat = mkV 0 0 /\
  bias_momentum (sc_body scene) [0; 1]%nat = mkV 0 0 /\ ev_dt bump <> 0 /\ isolated [0; 1]%nat bump /\ moved [0; 1]%nat (ev_dyn bump) /\ momentum (sc_body scene) [0; 1]%nat = mkV 1 0.
Proof.
  destruct ball_dynamic as [T1 T2].
  assert (M : moved [0; 1]%nat [0; 1; 2]%nat) by (split; [repeat constructor; cbn; intuition lia|intros i Hi; cbn in *; intuition lia]).
  split; [split; [repeat constructor; cbn; intuition lia|]|].
  { intros i [<-|[<-|[]]]; (split; [|assumption]); unfold finite_mass, scene, ball, crate, body_at; cbn [sc_body b_m b_minv b_i b_iinv]; repeat split; try lra. }
  split; [exact M|]. split; [unfold force_on, scene, ball, crate, body_at, vplus; cbn; apply vec_eq; cbn [vx vy]; ring|].
  split; [unfold bias_momentum, scene, ball, crate, body_at, vplus, vscale; cbn; apply vec_eq; cbn [vx vy]; ring|].
  split; [cbn; lra|]. split; [|split; [exact M|]].
  - split; intros i k x Hx; cbn in Hx; repeat destruct Hx as [Hx|Hx]; try contradiction; injection Hx as <- <- _; cbn; intuition lia.
  - unfold scene, ball, crate, body_at, momentum, vplus, vscale. cbn. apply vec_eq; cbn [vx vy]; ring.
Qed.

(** ** C113: a step never changes a body of infinite mass that it does not integrate, and moves a kinematic body along its own velocity *)
Theorem C113_static_stays : forall se evs (s : Scene R) k, immovable (sc_body s k) -> ~ In k (sc_dyn s) ->
  Forall (fun e => isolated [] e /\ ~ In k (ev_dyn e)) evs -> sc_body (steps se s evs) k = sc_body s k.
Proof.
  intros se. unfold steps. induction evs as [|e evs IH]; intros s k Im N F; cbn [fold_left]; [reflexivity|]. inversion F as [|? ? [Is Ne] Fr]; subst.
  pose proof (step_static se s e k Is Im N Ne) as E. rewrite IH; [exact E|now rewrite E| |exact Fr].
  destruct (Req_dec (ev_dt e) 0) as [Z|Nz].
  - unfold step. rewrite Z, dt_zero. exact N.
  - destruct (step_shape se s e Nz) as (_ & _ & _ & _ & _ & _ & -> & _). exact Ne.
Qed.
Theorem C113_kinematic_course : forall se evs (s : Scene R) k, immovable (sc_body s k) -> b_type (sc_body s k) = KINEMATIC -> b_vbias (sc_body s k) = mkV 0 0 -> b_wbias (sc_body s k) = 0 ->
  NoDup (sc_dyn s) -> In k (sc_dyn s) -> Forall (fun e => ev_dt e <> 0 /\ isolated [] e /\ NoDup (ev_dyn e) /\ In k (ev_dyn e)) evs ->
  let b := sc_body s k in let b' := sc_body (steps se s evs) k in let t := fold_right Rplus 0 (map ev_dt evs) in
  b_v b' = b_v b /\ b_w b' = b_w b /\ b_p b' = vplus (b_p b) (vscale t (b_v b)) /\ b_a b' = b_a b + t * b_w b.
Proof.
  intros se. unfold steps. induction evs as [|e evs IH]; intros s k Im Ty V0 W0 D N F; cbn [fold_left map fold_right]; cbv zeta.
  { repeat split; [|ring]. apply vec_eq; unfold vplus, vscale; cbn [vx vy]; ring. }
  inversion F as [|? ? (Nz & Is & De & Ne) Fr]; subst.
  pose proof (step_kinematic se s e k Nz Is Im Ty D De N Ne) as E. destruct (update_position_facts (sc_body s k) (ev_dt e)) as (_ & F2 & _ & F4 & F5 & _ & F7 & F8 & F9).
  destruct (step_shape se s e Nz) as (_ & _ & _ & _ & _ & _ & Ed & _). rewrite <- E in *.
  assert (Aw : b_w (sc_body (step se s e) k) = b_w (sc_body s k)) by (rewrite E; reflexivity).
  assert (Aa : b_a (sc_body (step se s e) k) = b_a (sc_body s k) + ev_dt e * b_w (sc_body s k)).
  { rewrite E. unfold b_update_position, b_set_transform. cbn [b_a upd_bias upd_tr upd_a upd_p b_w b_wbias]. unR. rewrite W0. ring. }
  destruct (IH (step se s e) k) as (I1 & I2 & I3 & I4); try assumption; try (now rewrite Ed).
  - unfold immovable in *. now rewrite F2, F4.
  - now rewrite F7.
  - rewrite E. reflexivity.
  - rewrite I1, I2, I3, I4, F5, F9, Aw, Aa, V0. repeat split; [|ring]. apply vec_eq; unfold vplus, vscale; cbn [vx vy]; ring.
Qed.
Example C113_nonvacuous : let b := b_set_type ball KINEMATIC in immovable b /\ b_type b = KINEMATIC /\ b_vbias b = mkV 0 0.
Proof.
  pose proof MaxFloat_big as Big. pose proof (proj1 ball_dynamic) as T.
  cbv zeta. unfold b_set_type. rewrite T. cbn [upd_idle]. split; [split; reflexivity|]. split; [|reflexivity].
  unfold b_type. cbn [b_idle b_m upd_vel upd_moment upd_mass upd_idle].
  assert (A1 : ((nzero : R) =? ninf)%num = false) by (apply Reqb_false; change (ninf : R) with MaxFloat64; change (nzero : R) with 0; lra).
  assert (A2 : ((ninf : R) =? ninf)%num = true) by (now apply Reqb_true). rewrite A1, A2. reflexivity.
Qed.

(** ** C114: islands are independent: any arithmetic, so also binary64 *)
Theorem C114_islands : forall T (N : Num T) (Tr : Trig T) se ids evs evs' (s s' : Scene T),
  Forall2 (fun e e' => isolated ids e /\ isolated ids e' /\ same_event ids e e') evs evs' -> same_scene ids s s' ->
  forall i, In i ids -> sc_body (steps se s evs) i = sc_body (steps se s' evs') i.
Proof. intros T N Tr se ids evs evs' s s' F S i Hi. exact (proj1 (steps_same se ids evs evs' s s' F S) i Hi). Qed.
(** the impulses stored in the group's arbiters and joints are the same too *)
Theorem C114_island_impulses : forall T (N : Num T) (Tr : Trig T) se ids e e' (s s' : Scene T), isolated ids e -> isolated ids e' -> same_scene ids s s' -> same_event ids e e' -> neqb (ev_dt e) nzero = false ->
  of_group ids (sc_arbs (step se s e)) = of_group ids (sc_arbs (step se s' e')) /\ of_group ids (sc_cons (step se s e)) = of_group ids (sc_cons (step se s' e')).
Proof. intros T N Tr se ids e e' s s' I I' S E D. exact (proj2 (step_same se ids s s' e e' I I' S E) D). Qed.
(** islands that rest on the same ground (or on the same moving platform), over the reals *)
Theorem C114_shared_ground : forall se ids gr evs evs' (s s' : Scene R),
  (forall i, In i ids \/ In i gr -> sc_body s i = sc_body s' i) -> grounded gr s -> same_bodies (ids ++ gr) (sc_dyn s) (sc_dyn s') -> sc_dt s = sc_dt s' ->
  Forall2 (fun e e' => island ids gr e /\ island ids gr e' /\ same_island ids gr e e') evs evs' ->
  forall i, In i ids -> sc_body (steps se s evs) i = sc_body (steps se s' evs') i.
Proof.
  intros se ids gr evs evs' s s' A M D E F i Hi. destruct (steps_island se ids gr evs evs' s s' F) as [[K _] _]; [|apply K; auto].
  split; [split; assumption|]. split; assumption.
Qed.
(** a ball on the ground, body 9, behaves the same whether or not a crate lies on the same ground *)
Example C114_ground_nonvacuous : let ground := b_set_type ball STATIC in
  let s := mkScene (fun i => match i with 0%nat => ball | 9%nat => ground | _ => crate end) [0; 1]%nat [] [] (1 / 60) in
  let e := mkEvent (1 / 60) [0; 1]%nat [((0, 9)%nat, hit); ((1, 9)%nat, hit)] [] in let e' := mkEvent (1 / 60) [0]%nat [((0, 9)%nat, hit)] [] in
  grounded [9]%nat s /\ island [0]%nat [9]%nat e /\ island [0]%nat [9]%nat e' /\ same_island [0]%nat [9]%nat e e' /\ ~ isolated [0]%nat e.
Proof.
  cbv zeta. split.
  { intros i [<-|[]]. cbn [sc_body]. unfold b_set_type. rewrite (proj1 ball_dynamic). split; reflexivity. }
  assert (I : forall l : list (link (Arb R)), (forall t, In t l -> t = ((0, 9)%nat, hit) \/ t = ((1, 9)%nat, hit)) -> rests_on [0]%nat [9]%nat l).
  { intros l Hl i k x Hx. destruct (Hl _ Hx) as [E|E]; injection E as -> -> _; cbn; intuition lia. }
  split; [|split; [|split]].
  - split; [|intros i k x []]. apply I. cbn. intuition auto.
  - split; [|intros i k x []]. apply I. cbn. intuition auto.
  - split; [reflexivity|]. split; [|split; reflexivity]. split; [|split]; try (repeat constructor; cbn; intuition lia). intros i Hi. cbn in *. intuition lia.
  - intros [C _]. destruct (C 0%nat 9%nat hit) as [_ H]; [now left|]. cbn in H. assert (0 = 9 \/ False)%nat by (apply H; now left). intuition lia.
Qed.
(** the same group alone in the space *)
Example C114_nonvacuous : let alone := mkEvent (1 / 60) [1; 0]%nat [((0, 1)%nat, hit)] (ev_cons bump) in
  isolated [0; 1]%nat bump /\ isolated [0; 1]%nat alone /\ same_event [0; 1]%nat bump alone.
Proof.
  cbv zeta. split; [apply C112_nonvacuous|]. split.
  - split; intros i k x Hx; cbn in Hx; repeat destruct Hx as [Hx|Hx]; try contradiction; injection Hx as <- <- _; cbn; intuition lia.
  - split; [reflexivity|]. split; [|split; reflexivity]. split; [|split]; try (repeat constructor; cbn; intuition lia). intros i Hi. cbn in *. intuition lia.
Qed.

(** ** C115: what rests stays: stacks and hanging loads whose stored impulses carry the weights do not move at all, over any number of steps *)
(** one step, after a step of another length: the stored impulses are scaled by the ratio of the two lengths *)
Theorem C115_rest_step : forall se (s : Scene R) e, ev_dt e <> 0 -> sc_dt s <> 0 -> sc_dyn s = ev_dyn e ->
  at_rest se (ev_dt e) (ev_dt e / sc_dt s) (sc_body s) (ev_dyn e) (ev_arbs e) (ev_cons e) ->
  (forall i, unmoved (sc_body s i) (sc_body (step se s e) i)) /\ map accumulated (sc_arbs (step se s e)) = map accumulated (ev_arbs e).
Proof.
  intros se s e Nz Np D Rs. destruct (step_rest se s e Nz) as (arbs & js & E & A & _); [|exact D|].
  { destruct (Req_EM_T (sc_dt s) 0); [contradiction|exact Rs]. }
  rewrite E. cbn [sc_body sc_arbs]. split; [|exact A]. intros i.
  assert (R1 : resettled (sc_body s) (w1 s e)) by (intros j; unfold w1; destruct (in_dec _ _ _); auto).
  destruct (resettled_facts _ _ i R1) as (P & An & _ & S & _). split; [exact P|]. split; [exact An|]. apply S, (proj1 (proj2 Rs) i).
Qed.
(** a new space starts without stored impulses: the first step applies none *)
Theorem C115_first_step : forall se (s : Scene R) e, ev_dt e <> 0 -> sc_dt s = 0 -> sc_dyn s = ev_dyn e ->
  at_rest se (ev_dt e) 0 (sc_body s) (ev_dyn e) (ev_arbs e) (ev_cons e) -> forall i, unmoved (sc_body s i) (sc_body (step se s e) i).
Proof.
  intros se s e Nz Np D Rs i. destruct (step_rest se s e Nz) as (arbs & js & E & _); [|exact D|].
  { destruct (Req_EM_T (sc_dt s) 0); [exact Rs|contradiction]. }
  rewrite E. cbn [sc_body]. assert (R1 : resettled (sc_body s) (w1 s e)) by (intros j; unfold w1; destruct (in_dec _ _ _); auto).
  destruct (resettled_facts _ _ i R1) as (P & An & _ & S & _). split; [exact P|]. split; [exact An|]. apply S, (proj1 (proj2 Rs) i).
Qed.
(** steps of equal length, each finding impulses that carry the weights *)
Theorem C115_rest_forever : forall se dt evs (s : Scene R), dt <> 0 -> sc_dt s = dt ->
  Forall (fun e => ev_dt e = dt /\ ev_dyn e = sc_dyn s /\ at_rest se dt 1 (sc_body s) (sc_dyn s) (ev_arbs e) (ev_cons e)) evs ->
  forall i, b_p (sc_body (steps se s evs) i) = b_p (sc_body s i) /\ b_a (sc_body (steps se s evs) i) = b_a (sc_body s i) /\
            b_v (sc_body (steps se s evs) i) = b_v (sc_body s i) /\ b_w (sc_body (steps se s evs) i) = b_w (sc_body s i).
Proof.
  intros se dt evs s Nz E F i. pose proof (steps_rest se dt evs s Nz E F) as R. destruct (resettled_facts _ _ i R) as (P & A & _). repeat split; try assumption; destruct (R i) as [->| ->]; reflexivity.
Qed.
(** a box of mass 2 standing on two corners and a lamp of mass 1 hanging from a pivot, gravity 10, steps of 1/10 *)
Definition box0 := body_at 2 1 0 1 0 0 0.
Definition lamp := body_at 1 1 5 3 0 0 0.
Definition rock : Body R := mkBody 1 0 1 0 (mkV 0 0) (mkV 0 0) (mkV 0 0) (mkV 0 0) 0 0 0 (t_translate (mkV 0 0)) (mkV 0 0) 0 [] 0.
Definition corner (x : R) : Contact R := mkCon (mkV x 0) (mkV x (-1)) 1 1 0 1 0 0 0 7.
Definition stand : Arb R := mkArb 0 (1 / 2) (mkV 0 0) (mkV 0 1) [corner 1; corner (-1)] false Normal.
Definition hook : @Params R * @Joint R := (mkP 1000 (1 / 2) 10, JPivot (mkPivot (mkV 5 4) (mkV 0 1) (mkV 0 0) (mkV 0 0) (mkM 0 0 0 0) (mkV 0 1) (mkV 0 0))).
Definition room : nat -> Body R := fun i => match i with 0%nat => box0 | 1%nat => lamp | _ => rock end.
Example C115_nonvacuous : at_rest (mkSettings (mkV 0 (-10)) 1 (1 / 10) (1 / 2) 10) (1 / 10) 1 room [0; 1]%nat [((9, 0)%nat, stand)] [((9, 1)%nat, hook)].
Proof.
  assert (Big : 2 < MaxFloat64) by (unfold MaxFloat64; apply IZR_lt; vm_compute; reflexivity).
  assert (E : forall x : R, x <= 2 -> (x =? ninf)%num = false) by (intros x Hx; apply Reqb_false; change (ninf : R) with MaxFloat64; lra).
  assert (Or : forall i, oriented (room i)).
  { intros i v. assert (Ta : b_a (room i) = 0 /\ exists p, b_tr (room i) = t_translate p) by (destruct i as [|[|i]]; (split; [reflexivity|eexists; reflexivity])).
    destruct Ta as [-> [q ->]]. unfold t_vect, t_translate, t_transpose, turn. cbn [ta tb tc td]. rewrite cos_0, sin_0. unR. apply vec_eq; cbn [vx vy]; ring. }
  split; [repeat constructor; cbn; intuition lia|]. split.
  { intros i. split; [|apply Or]. destruct i as [|[|i]]; repeat split. }
  split. { intros i [<-|[<-|[]]]; (split; [unfold finite_mass, room, box0, lamp, body_at; cbn [b_m b_minv b_i b_iinv]; repeat split; lra|]); (split; [unfold b_type, room, box0, lamp, body_at; cbn [b_idle b_m]; rewrite !E by lra; reflexivity|split; reflexivity]). }
  split. { intros i N. destruct i as [|[|i]]; [exfalso; apply N; now left|exfalso; apply N; right; now left|split; reflexivity]. }
  split. { constructor; [|constructor]. split; [lia|]. split; [discriminate|]. split; [reflexivity|]. cbn [stand ar_contacts ar_u ar_n].
    repeat constructor; cbn [c_jnAcc c_jtAcc corner]; try rewrite Rabs_R0; try lra; unfold inner, vminus, vplus; cbn; lra. }
  assert (T0 : forall v : RV, turn 0 v = v) by (intros v; unfold turn; rewrite cos_0, sin_0; apply vec_eq; cbn [vx vy]; ring).
  split. { constructor; [|constructor]. split; [lia|]. unfold arm. change (b_a (room 9)) with 0. change (b_a (room 1)) with 0. rewrite !T0. split; [|split].
    - unfold vplus, vminus. cbn. apply vec_eq; cbn [vx vy]; ring.
    - cbn [piv_jAcc maxForce]. unfold norm, norm2. cbn [vx vy]. replace (0 * 0 + 1 * 1) with 1 by ring. rewrite sqrt_1. lra.
    - cbn [maxBias]. lra. }
  cbv zeta. assert (P : contact_pushes [((9, 0)%nat, stand)] ++ pivot_pushes room [((9, 1)%nat, hook)] =
    [(9%nat, 0%nat, mkV 1 0, mkV 1 (-1), mkV 0 1); (9%nat, 0%nat, mkV (-1) 0, mkV (-1) (-1), mkV 0 1); (9%nat, 1%nat, mkV 5 4, mkV 0 1, mkV 0 1)]).
  { unfold contact_pushes, pivot_pushes. cbn [flat_map map app stand ar_contacts ar_n corner c_r1 c_r2 c_jnAcc c_jtAcc hook piv_A piv_B piv_jAcc]. unfold arm. change (b_a (room 9)) with 0. change (b_a (room 1)) with 0. rewrite !T0.
    assert (J : vplus (vscale 1 (mkV 0 1)) (vscale 0 (turn (PI / 2) (mkV 0 1))) = mkV 0 1) by (unfold vplus, vscale; apply vec_eq; cbn [vx vy]; ring). rewrite J.
    repeat f_equal; unfold vminus; cbn; apply vec_eq; cbn [vx vy]; ring. }
  rewrite P. intros i [<-|[<-|[]]]; unfold impulse_on, twist_on; cbn [fold_right Nat.eqb]; unfold room, box0, lamp, body_at; cbn [b_m se_gravity]; (split; [unfold vplus, vscale; apply vec_eq; cbn [vx vy]; field|unfold crossR; cbn [vx vy]; ring]).
Qed.

(** ** C116: TotalImpulse after a step is the impulse the pair applied in that step -- false when the step length changes:
    the stored impulse is applied dt / previous dt times, but not rescaled itself *)
(** the impulse that the step applied to a body beyond its weight; the pair reports the opposite one, on its first body *)
Definition received (se : Settings R) (dt : R) (b b' : Body R) : RV := vminus (vscale (b_m b) (vminus (b_v b') (b_v b))) (vscale (b_m b * dt) (se_gravity se)).
Theorem C116_total_impulse_refuted : exists se (s : Scene R) e i k arb, sc_dt s = 1 / 10 /\ ev_dt e = 1 / 5 /\ ev_cons e = [] /\
  sc_arbs (step se s e) = [((i, k), arb)] /\ received se (1 / 5) (sc_body s k) (sc_body (step se s e) k) = mkV 0 4 /\ arb_total_impulse arb = mkV 0 (-2).
Proof.
  set (se := mkSettings (mkV 0 (-10)) 1 (1 / 10) (1 / 2) 10 : Settings R).
  set (s := mkScene (fun i => match i with 0%nat => box0 | _ => rock end) [0]%nat [] [] (1 / 10) : Scene R).
  set (e := mkEvent (1 / 5) [0]%nat [((9, 0)%nat, stand)] [] : Event R).
  destruct C115_nonvacuous as (_ & St & Fin & Imm & Ha & _ & _).
  assert (Rs : at_rest se (ev_dt e) (ev_dt e / sc_dt s) (sc_body s) (ev_dyn e) (ev_arbs e) (ev_cons e)).
  { split; [repeat constructor; cbn; intuition lia|]. split; [intros [|i]; [apply (St 0%nat)|apply (St 9%nat)]|].
    split; [intros i [<-|[]]; apply (Fin 0%nat); now left|]. split; [intros [|i] N; [exfalso; apply N; now left|apply (Imm 9%nat); cbn; intuition lia]|].
    split; [constructor; [exact (Forall_inv Ha)|constructor]|]. split; [constructor|]. cbv zeta. intros i [<-|[]].
    assert (J : vplus (vscale 1 (mkV 0 1)) (vscale 0 (turn (PI / 2) (mkV 0 1))) = mkV 0 1) by (unfold vplus, vscale; apply vec_eq; cbn [vx vy]; ring).
    unfold contact_pushes, pivot_pushes, e, s, se. cbn [ev_arbs ev_cons ev_dt flat_map map app stand ar_contacts ar_n corner c_r1 c_r2 c_jnAcc c_jtAcc sc_dt]. rewrite J.
    unfold impulse_on, twist_on; cbn [fold_right Nat.eqb]; unfold box0, body_at; cbn [sc_body b_m se_gravity]; (split; [unfold vplus, vscale; apply vec_eq; cbn [vx vy]; field|unfold crossR; cbn [vx vy]; field]). }
  destruct (C115_rest_step se s e) as [U A]; [cbn; lra|cbn; lra|reflexivity|exact Rs|].
  destruct (step_rest se s e) as (arbs & js & E & _ & Ea); [cbn; lra| |reflexivity|].
  { destruct (Req_EM_T (sc_dt s) 0) as [Z|_]; [exfalso; cbn in Z; lra|exact Rs]. }
  exists se, s, e, 9%nat, 0%nat. eexists. split; [reflexivity|]. split; [reflexivity|]. split; [reflexivity|]. split; [rewrite E; cbn [sc_arbs]; rewrite Ea; reflexivity|].
  split.
  - destruct (U 0%nat) as (_ & _ & V & _). unfold received. rewrite V. unfold vminus, vscale. apply vec_eq; cbn; field.
  - unfold arb_total_impulse, arb_prestep, arb_with, arb_count, stand, vneg, vadd, vrotate. cbn [ar_swapped ar_state ar_contacts ar_n map length firstn fold_left con_prestep c_jnAcc c_jtAcc corner]. unR. apply vec_eq; cbn [vx vy]; unfold vzero; cbn [vx vy]; change (nzero : R) with 0; ring.
Qed.

Print Assumptions C112_step. Print Assumptions C112_group_is_particle. Print Assumptions C112_uniform. Print Assumptions C113_static_stays. Print Assumptions C113_kinematic_course.
Print Assumptions C114_islands. Print Assumptions C114_island_impulses. Print Assumptions C114_shared_ground.
Print Assumptions C115_rest_step. Print Assumptions C115_first_step. Print Assumptions C115_rest_forever. Print Assumptions C116_total_impulse_refuted.
