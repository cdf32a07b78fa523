(** Islands that share immovable bodies. *)
From Coq Require Import Reals ZArith Bool List Lra Lia.
From Verif Require Import Num Spec SpecSolver SpecStep.
From Verif.Model Require Import Vector BB Transform Body Solver Step.
From Verif.Proofs Require Import RTac Geom BodyPf SolverPf StepPf StepMech.
Import ListNotations.
Local Open Scope R_scope.

Notation st := (@store R).
Definition agree (ids gr : list nat) (w w' : st) : Prop :=
  (forall i, In i ids \/ In i gr -> w i = w' i) /\ (forall i, In i gr -> immovable (w i)).
Section L.
Context {X : Type} (f : X -> Body R -> Body R -> X * Body R * Body R) (G : good f).
Lemma rests_ends ids gr (l l' : list (link X)) : map fst l = map fst l' -> rests_on ids gr l -> rests_on ids gr l'.
Proof.
  intros E C i k x Hi. apply (in_map fst) in Hi. rewrite <- E in Hi. apply in_map_iff in Hi as ([[i' k'] x'] & E' & Hi). cbn in E'. injection E' as -> ->. eapply C, Hi.
Qed.
Lemma rests_link ids gr l w : rests_on ids gr l -> rests_on ids gr (snd (each_link f l w)).
Proof. intros C. eapply rests_ends; [symmetry; apply each_link_ends|exact C]. Qed.
Lemma rests_tl ids gr t (l : list (link X)) : rests_on ids gr (t :: l) -> rests_on ids gr l.
Proof. intros C i k x Hi. apply (C i k x). now right. Qed.
Lemma each_link_island ids gr l : rests_on ids gr l -> forall w w', agree ids gr w w' ->
  agree ids gr (fst (each_link f l w)) (fst (each_link f (of_island ids l) w')) /\
  of_island ids (snd (each_link f l w)) = snd (each_link f (of_island ids l) w').
Proof.
  induction l as [|[[i k] x] l IH]; intros C w w' A; [cbn; auto|].
  pose proof (C i k x (or_introl eq_refl)) as (Ne & I1 & I2). specialize (IH (rests_tl _ _ _ _ C)). destruct A as [A M].
  pose proof (G x (w i) (w k)) as Gx. cbn [each_link]. destruct (f x (w i) (w k)) as [[x' a] b] eqn:Ef. destruct Gx as (V1 & V2 & _ & F1 & F2).
  assert (K : (if in_dec Nat.eq_dec i ids then true else if in_dec Nat.eq_dec k ids then true else false) = true ->
              (In i ids \/ In i gr) /\ (In k ids \/ In k gr)).
  { destruct (in_dec Nat.eq_dec i ids) as [Hi|Hi]; [auto|]. destruct (in_dec Nat.eq_dec k ids) as [Hk|Hk]; [auto|discriminate]. }
  assert (N : (if in_dec Nat.eq_dec i ids then true else if in_dec Nat.eq_dec k ids then true else false) = false -> ~ In i ids /\ ~ In k ids).
  { destruct (in_dec Nat.eq_dec i ids) as [Hi|Hi]; [discriminate|]. destruct (in_dec Nat.eq_dec k ids) as [Hk|Hk]; [discriminate|auto]. }
  unfold of_island in *. cbn [filter]. destruct (if in_dec Nat.eq_dec i ids then true else if in_dec Nat.eq_dec k ids then true else false) eqn:Ed.
  - destruct (K eq_refl) as [Hi Hk]. cbn [each_link]. rewrite <- (A i Hi), <- (A k Hk), Ef.
    assert (A' : agree ids gr (put (put w i a) k b) (put (put w' i a) k b)).
    { split; [intros j Hj|intros j Hj]; unfold put.
      - destruct (Nat.eqb j k); [reflexivity|]. destruct (Nat.eqb j i); auto.
      - destruct (Nat.eqb_spec j k) as [->|]; [rewrite F2; auto|]. destruct (Nat.eqb_spec j i) as [->|]; [rewrite F1; auto|]. auto. }
    destruct (IH _ _ A') as [J1 J2]. destruct (each_link f l (put (put w i a) k b)) as [w1 l1]. destruct (each_link f _ (put (put w' i a) k b)) as [w2 l2].
    cbn [fst snd filter] in *. rewrite Ed. split; [exact J1|now rewrite J2].
  - destruct (N eq_refl) as [Hi Hk].
    assert (S : forall j, In j ids \/ In j gr -> put (put w i a) k b j = w j).
    { intros j Hj. unfold put. destruct (Nat.eqb_spec j k) as [->|]; [destruct Hj; [contradiction|]; apply F2; auto|]. destruct (Nat.eqb_spec j i) as [->|]; [destruct Hj; [contradiction|]; apply F1; auto|]. reflexivity. }
    assert (A' : agree ids gr (put (put w i a) k b) w') by (split; intros j Hj; rewrite S by auto; auto).
    destruct (IH _ _ A') as [J1 J2]. destruct (each_link f l (put (put w i a) k b)) as [w1 l1].
    cbn [fst snd filter] in *. rewrite Ed. split; [exact J1|exact J2].
Qed.
Lemma agree_refl ids gr w w' : agree ids gr w w' -> agree ids gr w' w'.
Proof. intros [A M]. split; [auto|]. intros i Hi. rewrite <- A; auto. Qed.
Lemma each_link_both ids gr l l' w w' : rests_on ids gr l -> rests_on ids gr l' -> of_island ids l = of_island ids l' -> agree ids gr w w' ->
  agree ids gr (fst (each_link f l w)) (fst (each_link f l' w')) /\
  of_island ids (snd (each_link f l w)) = of_island ids (snd (each_link f l' w')).
Proof.
  intros C C' E A. destruct (each_link_island ids gr l C w w' A) as [[I1 I0] I2].
  destruct (each_link_island ids gr l' C' w' w' (agree_refl _ _ _ _ A)) as [[J1 J0] J2].
  rewrite E in *. split; [split; [intros i Hi; rewrite I1, J1 by assumption; reflexivity|exact I0]|]. now rewrite I2, J2.
Qed.
End L.

Lemma agree_bodies (f : Body R -> Body R) ids gr l l' (w w' : st) : (forall b, immovable b -> immovable (f b)) -> same_bodies (ids ++ gr) l l' -> agree ids gr w w' ->
  agree ids gr (each_body f l w) (each_body f l' w').
Proof.
  intros Hf S [A M]. split.
  - intros i Hi. apply (each_body_agree f (ids ++ gr)); [exact S| |apply in_or_app; exact Hi]. intros j Hj. apply A. now apply in_app_or.
  - intros i Hi. destruct S as (N & _). destruct (in_dec Nat.eq_dec i l) as [Il|Nl]; [rewrite each_body_in by assumption; auto|rewrite each_body_out by assumption; auto].
Qed.
Lemma iterate_island ids gr dt n : forall (w w' : st) arbs arbs' js js', rests_on ids gr arbs -> rests_on ids gr arbs' -> rests_on ids gr js -> rests_on ids gr js' ->
  of_island ids arbs = of_island ids arbs' -> of_island ids js = of_island ids js' -> agree ids gr w w' ->
  let '(v, l, m) := iterate dt n (w, arbs, js) in let '(v', l', m') := iterate dt n (w', arbs', js') in
  agree ids gr v v' /\ of_island ids l = of_island ids l' /\ of_island ids m = of_island ids m'.
Proof.
  induction n as [|n IH]; intros w w' arbs arbs' js js' C1 C2 C3 C4 E1 E2 A; cbn [iterate]; [auto|].
  pose proof (each_link_both arb_apply_impulse good_arb_solve ids gr arbs arbs' w w' C1 C2 E1 A) as [A1 G1].
  pose proof (rests_link arb_apply_impulse ids gr arbs w C1) as D1. pose proof (rests_link arb_apply_impulse ids gr arbs' w' C2) as D2.
  destruct (each_link arb_apply_impulse arbs w) as [w1 l1]. destruct (each_link arb_apply_impulse arbs' w') as [w1' l1']. cbn [fst snd] in *.
  pose proof (each_link_both (solve_con dt) (good_con_solve dt) ids gr js js' w1 w1' C3 C4 E2 A1) as [A2 G2].
  pose proof (rests_link (solve_con dt) ids gr js w1 C3) as D3. pose proof (rests_link (solve_con dt) ids gr js' w1' C4) as D4.
  destruct (each_link (solve_con dt) js w1) as [w2 l2]. destruct (each_link (solve_con dt) js' w1') as [w2' l2']. cbn [fst snd] in *.
  apply IH; assumption.
Qed.
Lemma immovable_position dt b : immovable b -> immovable (b_update_position b dt).
Proof. intros [A B]. destruct (update_position_facts b dt) as (_ & F2 & _ & F4 & _). unfold immovable. now rewrite F2, F4. Qed.
Lemma immovable_velocity g d dt b : immovable b -> immovable (b_update_velocity b g d dt).
Proof. intros [A B]. unfold b_update_velocity. destruct (is_kinematic b); split; assumption. Qed.
Definition same_grounded ids gr (s s' : Scene R) : Prop := agree ids gr (sc_body s) (sc_body s') /\ same_bodies (ids ++ gr) (sc_dyn s) (sc_dyn s') /\ sc_dt s = sc_dt s'.
Lemma step_island se ids gr s s' e e' : island ids gr e -> island ids gr e' -> same_grounded ids gr s s' -> same_island ids gr e e' -> same_grounded ids gr (step se s e) (step se s' e').
Proof.
  intros [Ia Ij] [Ia' Ij'] (A & D & Edt) (E1 & E2 & E3 & E4). unfold step. rewrite <- E1. destruct (ev_dt e =? nzero)%num; [split; [exact A|now split]|]. rewrite <- Edt.
  set (dt := ev_dt e). set (w := each_body _ (sc_dyn s) _). set (w' := each_body _ (sc_dyn s') _).
  assert (A0 : agree ids gr w w') by (apply agree_bodies; auto using immovable_position).
  clearbody w w' dt.
  pose proof (each_link_both (prestep_arb se dt) (good_arb_prestep se dt) ids gr _ _ w w' Ia Ia' E3 A0) as [A1 G1].
  pose proof (rests_link (prestep_arb se dt) ids gr _ w Ia) as C1. pose proof (rests_link (prestep_arb se dt) ids gr _ w' Ia') as C1'.
  destruct (each_link (prestep_arb se dt) (ev_arbs e) w) as [w1 arbs]. destruct (each_link (prestep_arb se dt) (ev_arbs e') w') as [w1' arbs']. cbn [fst snd] in *.
  pose proof (each_link_both (prestep_con dt) (good_con_prestep dt) ids gr _ _ w1 w1' Ij Ij' E4 A1) as [A2 G2].
  pose proof (rests_link (prestep_con dt) ids gr _ w1 Ij) as C2. pose proof (rests_link (prestep_con dt) ids gr _ w1' Ij') as C2'.
  destruct (each_link (prestep_con dt) (ev_cons e) w1) as [w2 js]. destruct (each_link (prestep_con dt) (ev_cons e') w1') as [w2' js']. cbn [fst snd] in *.
  set (w3 := each_body _ (ev_dyn e) w2). set (w3' := each_body _ (ev_dyn e') w2').
  assert (A3 : agree ids gr w3 w3') by (apply agree_bodies; auto using immovable_velocity). clearbody w3 w3'.
  set (coef := if (sc_dt s =? nzero)%num then nzero else (dt / sc_dt s)%num). clearbody coef.
  pose proof (each_link_both (cached_arb coef) (good_arb_cached coef) ids gr _ _ w3 w3' C1 C1' G1 A3) as [A4 _].
  destruct (each_link (cached_arb coef) arbs w3) as [w4 ?]. destruct (each_link (cached_arb coef) arbs' w3') as [w4' ?]. cbn [fst snd] in *.
  pose proof (each_link_both (cached_con coef) (good_con_cached coef) ids gr _ _ w4 w4' C2 C2' G2 A4) as [A5 _].
  destruct (each_link (cached_con coef) js w4) as [w5 ?]. destruct (each_link (cached_con coef) js' w4') as [w5' ?]. cbn [fst snd] in *.
  pose proof (iterate_island ids gr dt (se_iter se) w5 w5' arbs arbs' js js' C1 C1' C2 C2' G1 G2 A5) as K.
  destruct (iterate dt (se_iter se) (w5, arbs, js)) as [[v la] m]. destruct (iterate dt (se_iter se) (w5', arbs', js')) as [[v' la'] m'].
  destruct K as (K1 & _). split; [exact K1|]. cbn [sc_dyn sc_dt]. split; [exact E2|reflexivity].
Qed.
Lemma steps_island se ids gr evs : forall evs' s s', Forall2 (fun e e' => island ids gr e /\ island ids gr e' /\ same_island ids gr e e') evs evs' -> same_grounded ids gr s s' ->
  same_grounded ids gr (steps se s evs) (steps se s' evs').
Proof.
  unfold steps. induction evs as [|e evs IH]; intros evs' s s' F S; inversion F as [|? e' ? es (Hi & Hi' & He) Fr]; subst; cbn [fold_left]; [exact S|].
  apply IH; [exact Fr|]. apply step_island; assumption.
Qed.
