From Coq Require Import Reals ZArith Bool Lra Lia Psatz.
From Verif Require Import Num Spec.
From Verif.Model Require Import Vector BB.

Ltac unR := unfold nzero, none_, ntwo, nhalf in *;
  cbn [nadd nsub nmul ndiv nneg nabs nsqrt nltb nleb neqb nmin nmax nlit ninf ntrunc numR
       ncos nsin npow nexp npi nfmod nfloor trigR] in *.
Ltac rbool := repeat match goal with
  | H : (_ && _)%bool = true |- _ => apply andb_prop in H; destruct H
  | H : (_ || _)%bool = false |- _ => apply orb_false_elim in H; destruct H
  | H : Rltb _ _ = true |- _ => apply Rltb_true in H
  | H : Rleb _ _ = true |- _ => apply Rleb_true in H
  | H : Reqb _ _ = true |- _ => apply Reqb_true in H
  | H : Rltb _ _ = false |- _ => apply Rltb_false in H
  | H : Rleb _ _ = false |- _ => apply Rleb_false in H
  | H : Reqb _ _ = false |- _ => apply Reqb_false in H
  | |- (_ && _)%bool = true => apply andb_true_intro; split
  | |- Rltb _ _ = true => apply Rltb_true
  | |- Rleb _ _ = true => apply Rleb_true
  | |- Reqb _ _ = true => apply Reqb_true
  | |- Rltb _ _ = false => apply Rltb_false
  | |- Rleb _ _ = false => apply Rleb_false
  | |- Reqb _ _ = false => apply Reqb_false
  end.
Ltac rminmax := repeat match goal with
  | |- context [Rmin ?a ?b] => let H := fresh in destruct (Rle_dec a b) as [H|H];
       [rewrite (Rmin_left a b) in * by lra | rewrite (Rmin_right a b) in * by lra]
  | |- context [Rmax ?a ?b] => let H := fresh in destruct (Rle_dec a b) as [H|H];
       [rewrite (Rmax_right a b) in * by lra | rewrite (Rmax_left a b) in * by lra]
  | H0 : context [Rmin ?a ?b] |- _ => let H := fresh in destruct (Rle_dec a b) as [H|H];
       [rewrite (Rmin_left a b) in * by lra | rewrite (Rmin_right a b) in * by lra]
  | H0 : context [Rmax ?a ?b] |- _ => let H := fresh in destruct (Rle_dec a b) as [H|H];
       [rewrite (Rmax_right a b) in * by lra | rewrite (Rmax_left a b) in * by lra]
  end.

Lemma vec_eq {T} (a b : Vec T) : vx a = vx b -> vy a = vy b -> a = b.
Proof. destruct a, b; cbn; intros; subst; reflexivity. Qed.

Lemma MaxFloat_big : (1 < MaxFloat64)%R.
Proof. unfold MaxFloat64. apply IZR_lt. vm_compute. reflexivity. Qed.
(** [vdot] over the reals is the specification's [inner] *)
Ltac vdi := repeat match goal with
  | |- context [vdot ?u ?v] => change (vdot u v) with (inner u v)
  | H : context [vdot ?u ?v] |- _ => change (vdot u v) with (inner u v) in H end.
