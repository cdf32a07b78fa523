(** Exchanging the two points of a line never leaves the origin strictly on the left both times, in binary64 as over the reals. *)
From Coq Require Import Reals ZArith Bool Lra Lia.
From Flocq Require Import IEEE754.BinarySingleNaN Core.
From Verif Require Import Num.
From Verif.Model Require Import Vector.
From Verif.Proofs Require Import FloatMono RTac.
Local Open Scope R_scope.

Lemma Fadd_comm (x y : F) : Fadd x y = Fadd y x.
Proof.
  unfold Fadd. destruct (is_finite x) eqn:Fx, (is_finite y) eqn:Fy.
  - pose proof (Bplus_correct 53 1024 Hprec Hmax mode_NE x y Fx Fy) as H1.
    pose proof (Bplus_correct 53 1024 Hprec Hmax mode_NE y x Fy Fx) as H2.
    rewrite (Rplus_comm (B2R y) (B2R x)) in H2.
    destruct (Rlt_bool _ _).
    + destruct H1 as (A1 & A2 & A3), H2 as (B1 & B2 & B3). apply B2R_Bsign_inj; try assumption; [congruence|].
      rewrite A3, B3. destruct (Rcompare _ 0); auto. apply andb_comm.
    + destruct H1 as [A1 A2], H2 as [B1 B2]. apply B2SF_inj. rewrite A1, B1, A2. reflexivity.
  - destruct x, y; try discriminate; reflexivity.
  - destruct x, y; try discriminate; reflexivity.
  - destruct x as [|[]| |], y as [|[]| |]; try discriminate; reflexivity.
Qed.

Definition iszero (x : F) : Prop := match x with B754_zero _ => True | _ => False end.
Definition opp2 (x x' : F) : Prop := x' = Bopp x \/ (iszero x /\ iszero x').

Lemma iszero_intro (x : F) : is_finite x = true -> B2R x = 0 -> iszero x.
Proof.
  destruct x as [| | |s m e Hb]; cbn [is_finite iszero]; intros Hf Hv; try discriminate; auto.
  cbn [B2R] in Hv. apply eq_0_F2R in Hv. destruct s; discriminate.
Qed.
Lemma rnd_opp x : rnd (- x) = - rnd x.
Proof. apply round_NE_opp. Qed.
Lemma Fopp_fin x : is_finite (Bopp x : F) = is_finite x.
Proof. apply is_finite_Bopp. Qed.

Lemma Fsub_opp2 (x y : F) : opp2 (Fsub x y) (Fsub y x).
Proof.
  unfold Fsub, opp2. destruct (is_finite x) eqn:Fx, (is_finite y) eqn:Fy.
  - pose proof (Bminus_correct 53 1024 Hprec Hmax mode_NE x y Fx Fy) as H1.
    pose proof (Bminus_correct 53 1024 Hprec Hmax mode_NE y x Fy Fx) as H2.
    replace (B2R y - B2R x) with (- (B2R x - B2R y)) in H2 by lra. rewrite rnd_opp, Rabs_Ropp in H2.
    destruct (Rlt_bool _ _).
    + destruct H1 as (A1 & A2 & A3), H2 as (B1 & B2 & B3).
      destruct (Rcompare_spec (B2R x - B2R y) 0) as [Hc|Hc|Hc].
      * left. apply B2R_Bsign_inj; rewrite ?Fopp_fin, ?B2R_Bopp; try assumption; [lra|].
        rewrite Bsign_Bopp by (destruct (Bminus mode_NE x y); try discriminate; reflexivity).
        rewrite A3, B3, Rcompare_Gt by lra. reflexivity.
      * right. rewrite Hc in *. rewrite rnd_0 in *. split; apply iszero_intro; auto; lra.
      * left. apply B2R_Bsign_inj; rewrite ?Fopp_fin, ?B2R_Bopp; try assumption; [lra|].
        rewrite Bsign_Bopp by (destruct (Bminus mode_NE x y); try discriminate; reflexivity).
        rewrite A3, B3, Rcompare_Lt by lra. reflexivity.
    + left. destruct H1 as [A1 A2], H2 as [B1 B2]. rewrite overflow_NE in *.
      apply B2SF_inf in A1. apply B2SF_inf in B1. rewrite A1, B1, A2. destruct (Bsign y); reflexivity.
  - left. destruct x, y; try discriminate; cbn; rewrite ?negb_involutive; reflexivity.
  - left. destruct x, y; try discriminate; cbn; rewrite ?negb_involutive; reflexivity.
  - left. destruct x as [|[]| |], y as [|[]| |]; try discriminate; reflexivity.
Qed.

Lemma Fmul_opp (x s : F) : Fmul (Bopp x) s = Bopp (Fmul x s).
Proof.
  unfold Fmul. destruct (is_finite x) eqn:Fx, (is_finite s) eqn:Fs.
  - pose proof (Bmult_correct 53 1024 Hprec Hmax mode_NE x s) as H1.
    pose proof (Bmult_correct 53 1024 Hprec Hmax mode_NE (Bopp x) s) as H2.
    rewrite B2R_Bopp, <- Ropp_mult_distr_l, rnd_opp, Rabs_Ropp in H2.
    rewrite Bsign_Bopp in H2 by (destruct x; try discriminate; reflexivity).
    destruct (Rlt_bool _ _).
    + destruct H1 as (A1 & A2 & A3), H2 as (B1 & B2 & B3). rewrite Fopp_fin in B2. rewrite Fx, Fs in *.
      assert (N1 : is_nan (Bmult mode_NE x s) = false) by (destruct (Bmult mode_NE x s); try discriminate; reflexivity).
      assert (N2 : is_nan (Bmult mode_NE (Bopp x) s) = false) by (destruct (Bmult mode_NE (Bopp x) s); try discriminate; reflexivity).
      apply B2R_Bsign_inj; rewrite ?Fopp_fin, ?B2R_Bopp; try assumption; [lra|].
      rewrite Bsign_Bopp by assumption. rewrite A3, B3 by assumption. destruct (Bsign x), (Bsign s); reflexivity.
    + rewrite overflow_NE in *. apply B2SF_inf in H1. apply B2SF_inf in H2. rewrite H1, H2. destruct (Bsign x), (Bsign s); reflexivity.
  - destruct x as [[]|[]| |[]], s as [|[]| |]; try discriminate; reflexivity.
  - destruct x as [|[]| |], s as [[]|[]| |[]]; try discriminate; reflexivity.
  - destruct x as [|[]| |], s as [|[]| |]; try discriminate; reflexivity.
Qed.
Lemma Fmul_opp2 (x x' s : F) : opp2 x x' -> opp2 (Fmul x s) (Fmul x' s).
Proof.
  intros [->|[H1 H2]].
  - left. apply Fmul_opp.
  - destruct x; try easy. destruct x'; try easy. destruct s as [| | |]; cbn; auto; unfold opp2; cbn; auto.
Qed.
Lemma Fltb_opp2 x x' y y' : opp2 x x' -> opp2 y y' -> Fltb x y = true -> Fltb x' y' = false.
Proof.
  intros Hx Hy Hl. destruct (Fltb_ok _ _ Hl) as [Ox Oy]. rewrite Fltb_val in Hl by assumption. apply Rltb_true in Hl.
  assert (G : forall z z', opp2 z z' -> Fok z -> Fok z' /\ Fval z' = - Fval z).
  { intros z z' [->|[Z1 Z2]] Oz; [now apply Fneg_spec|]. destruct z; try easy. destruct z'; try easy. split; [reflexivity|cbn; lra]. }
  destruct (G _ _ Hx Ox) as [Ox' Vx], (G _ _ Hy Oy) as [Oy' Vy].
  rewrite Fltb_val by assumption. apply Rltb_false. lra.
Qed.

(** vector.go:155-157 with the origin *)
Lemma no_double_flip_F (a b : Vec F) : pointgreater a b vzero = true -> pointgreater b a vzero = false.
Proof.
  unfold pointgreater, vzero. cbn [vx vy nltb nsub nadd nmul numF].
  rewrite (Fadd_comm (vy b) (vy a)), (Fadd_comm (vx b) (vx a)). intros Hl.
  eapply Fltb_opp2; [| |exact Hl]; apply Fmul_opp2, Fsub_opp2.
Qed.
Lemma no_double_flip_R (a b : Vec R) : pointgreater a b vzero = true -> pointgreater b a vzero = false.
Proof.
  unfold pointgreater, vzero. cbn [vx vy nltb nsub nadd nmul numR nzero ntwo nlit]. intros Hl.
  apply Rltb_true in Hl. apply Rltb_false. unfold nzero, ntwo in *. cbn in *. lra.
Qed.
