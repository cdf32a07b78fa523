(** Islands: a group of bodies that nothing connects with the rest. *)
From Coq Require Import Reals ZArith Bool List Lia.
From Verif Require Import Num Spec SpecSolver SpecStep.
From Verif.Model Require Import Vector BB Transform Body Solver Step.
Import ListNotations.

Section Gen.
Context {T : Type} `{Num T}.
Notation B := (Body T).
Notation store := (@store T).

Lemma put_same (w : store) i b : put w i b i = b.
Proof. unfold put. now rewrite Nat.eqb_refl. Qed.
Lemma put_other (w : store) i b k : k <> i -> put w i b k = w k.
Proof. unfold put. intros E. apply Nat.eqb_neq in E. now rewrite E. Qed.
Lemma each_body_out (f : B -> B) l : forall w i, ~ In i l -> each_body f l w i = w i.
Proof.
  unfold each_body. induction l as [|h l IH]; intros w i N; cbn [fold_left]; [reflexivity|].
  rewrite IH by (intros X; apply N; now right). apply put_other. intros ->. apply N. now left.
Qed.
Lemma each_body_in (f : B -> B) l : forall w i, NoDup l -> In i l -> each_body f l w i = f (w i).
Proof.
  unfold each_body. induction l as [|h l IH]; intros w i ND Hi; cbn [fold_left]; [contradiction|]. inversion ND as [|? ? N1 N2]; subst.
  destruct (Nat.eq_dec i h) as [->|Ne].
  - pose proof (each_body_out f l (put w h (f (w h))) h N1) as E. unfold each_body in E. rewrite E. apply put_same.
  - destruct Hi as [<-|Hi]; [congruence|]. rewrite IH by assumption. f_equal. now apply put_other.
Qed.
Lemma each_body_agree (f : B -> B) ids l l' (w w' : store) : same_bodies ids l l' -> (forall i, In i ids -> w i = w' i) ->
  forall i, In i ids -> each_body f l w i = each_body f l' w' i.
Proof.
  intros (N1 & N2 & S) A i Hi. destruct (in_dec Nat.eq_dec i l) as [I|N].
  - rewrite each_body_in by assumption. rewrite each_body_in by (auto; apply S; auto). now rewrite A.
  - rewrite each_body_out by assumption. rewrite each_body_out by (intros X; apply N, S; auto). now rewrite A.
Qed.

Section Links.
Context {X : Type} (f : X -> B -> B -> X * B * B).
(** the links keep their ends *)
Lemma each_link_ends l : forall w, map fst (snd (each_link f l w)) = map fst l.
Proof.
  induction l as [|[[i k] x] l IH]; intros w; cbn [each_link]; [reflexivity|]. destruct (f x (w i) (w k)) as [[x' a] b].
  specialize (IH (put (put w i a) k b)). destruct (each_link f l (put (put w i a) k b)) as [w' l']. cbn [snd map fst] in *. now rewrite IH.
Qed.
Lemma closed_ends ids (l l' : list (link X)) : map fst l = map fst l' -> closed ids l -> closed ids l'.
Proof.
  intros E C i k x Hi. apply (in_map fst) in Hi. rewrite <- E in Hi. apply in_map_iff in Hi as ([[i' k'] x'] & E' & Hi). cbn in E'. injection E' as -> ->. eapply C, Hi.
Qed.
Lemma each_link_closed ids l w : closed ids l -> closed ids (snd (each_link f l w)).
Proof. intros C. eapply closed_ends; [symmetry; apply each_link_ends|exact C]. Qed.
Lemma closed_tl ids t (l : list (link X)) : closed ids (t :: l) -> closed ids l.
Proof. intros C i k x Hi. apply (C i k x). now right. Qed.
(** what happens to a group depends on the group's links only *)
Lemma each_link_group ids l : closed ids l -> forall w w', (forall i, In i ids -> w i = w' i) ->
  (forall i, In i ids -> fst (each_link f l w) i = fst (each_link f (of_group ids l) w') i) /\
  of_group ids (snd (each_link f l w)) = snd (each_link f (of_group ids l) w').
Proof.
  induction l as [|[[i k] x] l IH]; intros C w w' A; [cbn; auto|].
  pose proof (C i k x (or_introl eq_refl)) as [Ne Io]. specialize (IH (closed_tl _ _ _ C)).
  unfold of_group in *. cbn [filter]. cbn [each_link]. destruct (f x (w i) (w k)) as [[x' a] b] eqn:Ef. destruct (in_dec Nat.eq_dec i ids) as [Hi|Hi].
  - cbn [each_link]. rewrite <- (A i Hi), <- (A k) by (now apply Io). rewrite Ef.
    assert (A' : forall j, In j ids -> put (put w i a) k b j = put (put w' i a) k b j).
    { intros j Hj. unfold put. destruct (Nat.eqb j k); [reflexivity|]. destruct (Nat.eqb j i); auto. }
    destruct (IH _ _ A') as [I1 I2]. destruct (each_link f l (put (put w i a) k b)) as [w1 l1]. destruct (each_link f _ (put (put w' i a) k b)) as [w2 l2].
    cbn [fst snd filter] in *. destruct (in_dec Nat.eq_dec i ids); [|contradiction]. split; [exact I1|now rewrite I2].
  - assert (A' : forall j, In j ids -> put (put w i a) k b j = w' j).
    { intros j Hj. rewrite !put_other; [now apply A| |]; intros ->; [now apply Hi|apply Hi, Io, Hj]. }
    destruct (IH _ _ A') as [I1 I2]. destruct (each_link f l (put (put w i a) k b)) as [w1 l1].
    cbn [fst snd filter] in *. destruct (in_dec Nat.eq_dec i ids); [contradiction|]. split; [exact I1|exact I2].
Qed.
Lemma each_link_same ids l l' w w' : closed ids l -> closed ids l' -> of_group ids l = of_group ids l' -> (forall i, In i ids -> w i = w' i) ->
  (forall i, In i ids -> fst (each_link f l w) i = fst (each_link f l' w') i) /\
  of_group ids (snd (each_link f l w)) = of_group ids (snd (each_link f l' w')).
Proof.
  intros C C' E A. destruct (each_link_group ids l C w w' A) as [I1 I2]. destruct (each_link_group ids l' C' w' w' ltac:(auto)) as [J1 J2].
  rewrite E in *. split; [intros i Hi; rewrite I1, J1 by assumption; reflexivity|]. now rewrite I2, J2.
Qed.
End Links.

Context `{Trig T}.
Lemma iterate_same ids dt n : forall (w w' : store) arbs arbs' js js', closed ids arbs -> closed ids arbs' -> closed ids js -> closed ids js' ->
  of_group ids arbs = of_group ids arbs' -> of_group ids js = of_group ids js' -> (forall i, In i ids -> w i = w' i) ->
  let '(v, l, m) := iterate dt n (w, arbs, js) in let '(v', l', m') := iterate dt n (w', arbs', js') in
  (forall i, In i ids -> v i = v' i) /\ of_group ids l = of_group ids l' /\ of_group ids m = of_group ids m' /\ closed ids l /\ closed ids l' /\ closed ids m /\ closed ids m'.
Proof.
  induction n as [|n IH]; intros w w' arbs arbs' js js' C1 C2 C3 C4 E1 E2 A; cbn [iterate]; [exact (conj A (conj E1 (conj E2 (conj C1 (conj C2 (conj C3 C4))))))|].
  pose proof (each_link_same arb_apply_impulse ids arbs arbs' w w' C1 C2 E1 A) as [A1 G1].
  pose proof (each_link_closed arb_apply_impulse ids arbs w C1) as D1. pose proof (each_link_closed arb_apply_impulse ids arbs' w' C2) as D2.
  destruct (each_link arb_apply_impulse arbs w) as [w1 l1]. destruct (each_link arb_apply_impulse arbs' w') as [w1' l1']. cbn [fst snd] in *.
  pose proof (each_link_same (solve_con dt) ids js js' w1 w1' C3 C4 E2 A1) as [A2 G2].
  pose proof (each_link_closed (solve_con dt) ids js w1 C3) as D3. pose proof (each_link_closed (solve_con dt) ids js' w1' C4) as D4.
  destruct (each_link (solve_con dt) js w1) as [w2 l2]. destruct (each_link (solve_con dt) js' w1') as [w2' l2']. cbn [fst snd] in *.
  apply IH; assumption.
Qed.
Lemma step_same se ids s s' e e' : isolated ids e -> isolated ids e' -> same_scene ids s s' -> same_event ids e e' -> same_scene ids (step se s e) (step se s' e') /\
  (neqb (ev_dt e) nzero = false -> of_group ids (sc_arbs (step se s e)) = of_group ids (sc_arbs (step se s' e')) /\ of_group ids (sc_cons (step se s e)) = of_group ids (sc_cons (step se s' e'))).
Proof.
  intros [Ia Ij] [Ia' Ij'] (A & D & Edt) (E1 & E2 & E3 & E4). unfold step. rewrite <- E1. destruct (ev_dt e =? nzero)%num; [split; [now split|discriminate]|]. rewrite <- Edt.
  set (dt := ev_dt e). set (w := each_body _ (sc_dyn s) _). set (w' := each_body _ (sc_dyn s') _).
  assert (A0 : forall i, In i ids -> w i = w' i) by (intros i Hi; apply (each_body_agree _ ids); auto).
  clearbody w w' dt.
  pose proof (each_link_same (prestep_arb se dt) ids _ _ w w' Ia Ia' E3 A0) as [A1 G1].
  pose proof (each_link_closed (prestep_arb se dt) ids _ w Ia) as C1. pose proof (each_link_closed (prestep_arb se dt) ids _ w' Ia') as C1'.
  destruct (each_link (prestep_arb se dt) (ev_arbs e) w) as [w1 arbs]. destruct (each_link (prestep_arb se dt) (ev_arbs e') w') as [w1' arbs']. cbn [fst snd] in *.
  pose proof (each_link_same (prestep_con dt) ids _ _ w1 w1' Ij Ij' E4 A1) as [A2 G2].
  pose proof (each_link_closed (prestep_con dt) ids _ w1 Ij) as C2. pose proof (each_link_closed (prestep_con dt) ids _ w1' Ij') as C2'.
  destruct (each_link (prestep_con dt) (ev_cons e) w1) as [w2 js]. destruct (each_link (prestep_con dt) (ev_cons e') w1') as [w2' js']. cbn [fst snd] in *.
  set (w3 := each_body _ (ev_dyn e) w2). set (w3' := each_body _ (ev_dyn e') w2').
  assert (A3 : forall i, In i ids -> w3 i = w3' i) by (intros i Hi; apply (each_body_agree _ ids); auto). clearbody w3 w3'.
  set (coef := if (sc_dt s =? nzero)%num then nzero else (dt / sc_dt s)%num). clearbody coef.
  pose proof (each_link_same (cached_arb coef) ids _ _ w3 w3' C1 C1' G1 A3) as [A4 _].
  destruct (each_link (cached_arb coef) arbs w3) as [w4 ?]. destruct (each_link (cached_arb coef) arbs' w3') as [w4' ?]. cbn [fst snd] in *.
  pose proof (each_link_same (cached_con coef) ids _ _ w4 w4' C2 C2' G2 A4) as [A5 _].
  destruct (each_link (cached_con coef) js w4) as [w5 ?]. destruct (each_link (cached_con coef) js' w4') as [w5' ?]. cbn [fst snd] in *.
  pose proof (iterate_same ids dt (se_iter se) w5 w5' arbs arbs' js js' C1 C1' C2 C2' G1 G2 A5) as K.
  destruct (iterate dt (se_iter se) (w5, arbs, js)) as [[v la] m]. destruct (iterate dt (se_iter se) (w5', arbs', js')) as [[v' la'] m'].
  destruct K as (K1 & K2 & K3 & _). cbn [sc_arbs sc_cons]. split; [|intros _; split; assumption]. split; [exact K1|]. cbn [sc_dyn sc_dt]. split; [exact E2|reflexivity].
Qed.
Lemma steps_same se ids evs : forall evs' s s', Forall2 (fun e e' => isolated ids e /\ isolated ids e' /\ same_event ids e e') evs evs' -> same_scene ids s s' ->
  same_scene ids (steps se s evs) (steps se s' evs').
Proof.
  unfold steps. induction evs as [|e evs IH]; intros evs' s s' F S; inversion F as [|? e' ? es (Hi & Hi' & He) Fr]; subst; cbn [fold_left]; [exact S|].
  apply IH; [exact Fr|]. apply step_same; assumption.
Qed.
End Gen.
