(** C143: the type of a body, which the code keeps as "idle time = INFINITY" (static) and "mass = INFINITY" (kinematic). *)
From Coq Require Import Reals ZArith Bool List Lra.
From Flocq Require Import IEEE754.BinarySingleNaN.
From Verif Require Import Num Spec SpecBody.
From Verif.Model Require Import Vector BB Transform Body.
From Verif.Proofs Require Import RTac Geom BodyPf.
Import ListNotations.

(** ** In any arithmetic in which INFINITY is itself and not 0 *)
Section Any.
Context {T : Type} `{Num T} `{Trig T} (INF : neqb ninf ninf = true) (ZERO : neqb nzero ninf = false).
(** the masses of the shapes that have one, added in order *)
Definition mass_of_shapes (l : list (MassInfo T)) : T := fold_left (fun a s => if nltb nzero (mi_m s) then nadd a (mi_m s) else a) l nzero.
Lemma acc_mass l : forall m i c, fst (fst (fold_left acc_step l (m, i, c))) = fold_left (fun a s => if nltb nzero (mi_m s) then nadd a (mi_m s) else a) l m.
Proof.
  induction l as [|s l IH]; intros m i c; [reflexivity|]. cbn [fold_left]. rewrite <- (IH _ (snd (fst (acc_step (m, i, c) s))) (snd (acc_step (m, i, c) s))).
  f_equal. f_equal. f_equal. unfold acc_step. destruct (nltb nzero (mi_m s)); reflexivity.
Qed.
Lemma act_mass (b : Body T) : b_m (b_activate b) = b_m b. Proof. unfold b_activate. destruct (is_dynamic b); reflexivity. Qed.
Lemma act_idle (b : Body T) : b_idle (b_activate b) = b_idle b \/ b_idle (b_activate b) = nzero. Proof. unfold b_activate. destruct (is_dynamic b); auto. Qed.
Lemma dyn_type b : neqb (b_idle b) ninf = false -> neqb (b_m b) ninf = false -> b_type b = DYNAMIC.
Proof. intros A B. unfold b_type. now rewrite A, B. Qed.
Lemma acc_dyn (b : Body T) : b_type b = DYNAMIC -> b_m (b_accumulate b) = mass_of_shapes (b_shapes b) /\ (b_idle (b_accumulate b) = b_idle b \/ b_idle (b_accumulate b) = nzero) /\ b_shapes (b_accumulate b) = b_shapes b.
Proof.
  intros D. assert (ID : is_dynamic b = true) by (unfold is_dynamic; now rewrite D). unfold b_accumulate. rewrite ID. cbn [negb]. unfold acc_loop, mass_of_shapes.
  pose proof (acc_mass (b_shapes b) nzero nzero vzero) as E. destruct (fold_left acc_step (b_shapes b) _) as [[m i] c]. cbn in E. subst m.
  unfold b_set_position. match goal with |- context [b_activate ?x] => set (y := x) end.
  split; [|split].
  - change (b_m (b_activate y) = b_m y). apply act_mass.
  - destruct (act_idle y) as [A|A]; [left|right]; exact A.
  - change (b_shapes (b_activate y) = b_shapes y). unfold b_activate. destruct (is_dynamic y); reflexivity.
Qed.
(** SetType gives the type asked for; a body made dynamic must not have shapes of total mass INFINITY *)
Theorem C143_set_type : forall (b : Body T) ty, (ty = DYNAMIC -> neqb (mass_of_shapes (b_shapes b)) ninf = false) -> b_type (b_set_type b ty) = ty.
Proof.
  intros b ty M. unfold b_set_type. destruct (match b_type b, ty with DYNAMIC, DYNAMIC | KINEMATIC, KINEMATIC | STATIC, STATIC => true | _, _ => false end) eqn:S.
  - now destruct (b_type b), ty.
  - destruct ty.
    + specialize (M eq_refl). set (y := upd_moment _ _ _). assert (D : b_type y = DYNAMIC) by (apply dyn_type; exact ZERO).
      destruct (acc_dyn y D) as (A & B & _). apply dyn_type; [destruct B as [B|B]; rewrite B; exact ZERO|rewrite A; exact M].
    + unfold b_type. cbn. now rewrite ZERO, INF.
    + unfold b_type. cbn. now rewrite INF.
Qed.
(** to static or kinematic: stopped and immovable; the rest of the motion state stays *)
Theorem C143_stopped : forall (b : Body T) ty, ty <> DYNAMIC -> ty <> b_type b -> let b' := b_set_type b ty in
  b_v b' = vzero /\ b_w b' = nzero /\ b_minv b' = nzero /\ b_iinv b' = nzero /\ b_p b' = b_p b /\ b_a b' = b_a b /\ b_cog b' = b_cog b /\ b_shapes b' = b_shapes b.
Proof. intros b ty N O. unfold b_set_type. destruct (b_type b), ty; try congruence; cbn; repeat split. Qed.
(** the type it has: nothing happens *)
Theorem C143_same_type : forall (b : Body T), b_set_type b (b_type b) = b.
Proof. intros b. unfold b_set_type. destruct (b_type b); reflexivity. Qed.
(** back to dynamic: the mass is that of the shapes, whatever it was before *)
Theorem C143_back : forall (b : Body T) ty, ty <> DYNAMIC -> b_m (b_set_type (b_set_type b ty) DYNAMIC) = mass_of_shapes (b_shapes b).
Proof.
  intros b ty N. assert (D : b_type (b_set_type b ty) = ty) by (apply C143_set_type; congruence).
  assert (S : b_shapes (b_set_type b ty) = b_shapes b) by (unfold b_set_type; destruct (b_type b), ty; try congruence; reflexivity).
  rewrite <- S. set (c := b_set_type b ty) in *. unfold b_set_type. rewrite D. destruct ty; [congruence| |];
  match goal with |- b_m (b_accumulate ?y) = _ => destruct (acc_dyn y) as (A & _ & _); [apply dyn_type; exact ZERO|exact A] end.
Qed.
End Any.
(** both arithmetics are such *)
Lemma R_inf : neqb (T := R) ninf ninf = true /\ neqb (T := R) nzero ninf = false.
Proof. pose proof MaxFloat_big. unR. split; [destruct (Reqb _ _) eqn:E|destruct (Reqb _ _) eqn:E]; auto; rbool; congruence || lra. Qed.
Lemma F_inf : neqb (T := F) ninf ninf = true /\ neqb (T := F) nzero ninf = false.
Proof. split; vm_compute; reflexivity. Qed.
(** (whatever math.Sin and math.Cos return) *)
Corollary C143_set_type_binary64 : forall (tr : Trig F) (b : Body F) ty, (ty = DYNAMIC -> neqb (mass_of_shapes (b_shapes b)) ninf = false) -> b_type (b_set_type b ty) = ty.
Proof. intros tr. exact (C143_set_type (proj1 F_inf) (proj2 F_inf)). Qed.

(** ** False: "back to dynamic, the body moves as before".  A body of mass 1 without shapes, made kinematic and dynamic again, has
    mass 0 and 1/m = +Inf; the next update of its velocity makes it NaN (0 * Inf), gravity or not *)
Definition fz : F := B754_zero false.
Definition f1 : F := F_of_Z 1.
Definition box : Body F := mkBody f1 f1 f1 f1 vzero vzero (mkV f1 fz) vzero fz fz fz t_identity vzero fz [] fz.
Theorem C143_there_and_back_refuted : exists (b : Body F) dt, forall tr : Trig F, b_type b = DYNAMIC /\ neqb (b_m b) f1 = true /\ b_f b = vzero /\
  let b' := b_set_type (b_set_type b KINEMATIC) DYNAMIC in
  b_type b' = DYNAMIC /\ b_m b' = nzero /\ b_v b' = vzero /\
  is_nan (vx (b_v (b_update_velocity b' vzero f1 dt))) = true /\ is_nan (vx (b_v (b_update_velocity b vzero f1 dt))) = false.
Proof. exists box, f1. intros tr. repeat match goal with |- _ /\ _ => split | |- let _ := _ in _ => cbv zeta end; vm_compute; reflexivity. Qed.
Example C143_nonvacuous : forall tr : Trig F, b_type box = DYNAMIC /\ b_type (b_set_type box KINEMATIC) = KINEMATIC /\ b_type (b_set_type box STATIC) = STATIC /\
  let massive := upd_shapes box [mkMI f1 f1 f1 vzero; mkMI fz f1 f1 vzero; mkMI (F_of_Z 2) f1 f1 vzero] in
  neqb (b_m (b_set_type (b_set_type massive STATIC) DYNAMIC)) (F_of_Z 3) = true /\ neqb (mass_of_shapes (b_shapes massive)) ninf = false.
Proof. intros tr. repeat match goal with |- _ /\ _ => split | |- let _ := _ in _ => cbv zeta end; vm_compute; reflexivity. Qed.
Print Assumptions C143_set_type. Print Assumptions C143_stopped. Print Assumptions C143_same_type. Print Assumptions C143_back. Print Assumptions C143_set_type_binary64. Print Assumptions C143_there_and_back_refuted. Print Assumptions C143_nonvacuous.
