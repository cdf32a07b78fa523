(** Monotonicity of binary64 rounding: the few facts about float arithmetic the tree relies on. *)
From Coq Require Import Reals ZArith Bool Lra Lia.
From Flocq Require Import IEEE754.BinarySingleNaN Core.
From Verif Require Import Num Spec.
From Verif.Model Require Import Vector BB BBTree.
From Verif.Proofs Require Import BBOrder.
Local Open Scope R_scope.

Notation rnd := (round radix2 (SpecFloat.fexp 53 1024) (round_mode mode_NE)).
Local Instance vexp : Valid_exp (SpecFloat.fexp 53 1024) := fexp_correct 53 1024 Hprec.

Lemma rnd_le x y : x <= y -> rnd x <= rnd y.
Proof. apply round_le; apply valid_rnd_round_mode || exact vexp. Qed.
Lemma rnd_B2R (x : F) : rnd (B2R x) = B2R x.
Proof. apply round_generic; [apply valid_rnd_round_mode|]. apply generic_format_B2R. Qed.
Lemma rnd_0 : rnd 0 = 0.
Proof. apply round_0. apply valid_rnd_round_mode. Qed.
Lemma B2R_lt (x : F) : Rabs (B2R x) < bpow radix2 1024.
Proof. apply abs_B2R_lt_emax. Qed.
Lemma B2SF_inf (x : F) s : B2SF x = SpecFloat.S754_infinity s -> x = B754_infinity s.
Proof. destruct x; cbn; intros [=]; subst; reflexivity. Qed.
Lemma overflow_NE s : binary_overflow 53 1024 mode_NE s = SpecFloat.S754_infinity s.
Proof. destruct s; reflexivity. Qed.
Lemma Bsign_val (x : F) : is_finite x = true -> B2R x < 0 -> Bsign x = true.
Proof.
  destruct x as [s| | |s m e Hb]; cbn [is_finite B2R Bsign]; intros; try discriminate; try lra.
  destruct s; auto. exfalso. unfold F2R in H0; cbn in H0.
  assert (0 < bpow radix2 e) by apply bpow_gt_0.
  assert (0 < IZR (Zpos m)) by (apply IZR_lt; reflexivity). nra.
Qed.
Lemma Bsign_pos (x : F) : is_finite x = true -> 0 < B2R x -> Bsign x = false.
Proof.
  destruct x as [s| | |s m e Hb]; cbn [is_finite B2R Bsign]; intros; try discriminate; try lra.
  destruct s; auto. exfalso. unfold F2R in H0; cbn in H0.
  assert (0 < bpow radix2 e) by apply bpow_gt_0.
  assert (IZR (Zneg m) < 0) by (apply IZR_lt; reflexivity). nra.
Qed.
Lemma fin_ok (x : F) : is_finite x = true -> Fok x.
Proof. intros H; destruct x; try discriminate; reflexivity. Qed.

Lemma Fadd_le x y : is_finite x = true -> Fok y -> Fval y <= 0 -> Fok (Fadd x y) /\ Fval (Fadd x y) <= Fval x.
Proof.
  intros Hx Hy Hv. pose proof (Fval_bound x Hx) as Bx.
  destruct (is_finite y) eqn:Fy.
  - rewrite (Fval_fin y Fy) in Hv. rewrite (Fval_fin x Hx) in *.
    pose proof (Bplus_correct 53 1024 Hprec Hmax mode_NE x y Hx Fy) as H.
    assert (Hr : rnd (B2R x + B2R y) <= B2R x) by (rewrite <- (rnd_B2R x) at 2; apply rnd_le; lra).
    destruct (Rlt_bool_spec (Rabs (rnd (B2R x + B2R y))) (bpow radix2 1024)) as [Hl|Hl].
    + destruct H as (H1 & H2 & _). unfold Fadd. split; [now apply fin_ok|]. rewrite Fval_fin by exact H2.
      rewrite H1. exact Hr.
    + destruct H as [H1 H2]. rewrite overflow_NE in H1. apply B2SF_inf in H1. unfold Fadd. rewrite H1.
      assert (Hy0 : B2R y <> 0).
      { intros E. rewrite E, Rplus_0_r, rnd_B2R in Hl. pose proof (B2R_lt x). lra. }
      rewrite H2, (Bsign_val y Fy) by lra. split; [reflexivity|]. cbn [Fval]. lra.
  - destruct y as [| [|] | |]; try discriminate.
    + destruct x; try discriminate; (split; [reflexivity|cbn [Fval] in *; cbn [Fadd Bplus Fval]; lra]).
    + cbn [Fval] in Hv. pose proof pow1024_pos. lra.
Qed.
Lemma Fadd_ge x y : is_finite x = true -> Fok y -> 0 <= Fval y -> Fok (Fadd x y) /\ Fval x <= Fval (Fadd x y).
Proof.
  intros Hx Hy Hv. pose proof (Fval_bound x Hx) as Bx.
  destruct (is_finite y) eqn:Fy.
  - rewrite (Fval_fin y Fy) in Hv. rewrite (Fval_fin x Hx) in *.
    pose proof (Bplus_correct 53 1024 Hprec Hmax mode_NE x y Hx Fy) as H.
    assert (Hr : B2R x <= rnd (B2R x + B2R y)) by (rewrite <- (rnd_B2R x) at 1; apply rnd_le; lra).
    destruct (Rlt_bool_spec (Rabs (rnd (B2R x + B2R y))) (bpow radix2 1024)) as [Hl|Hl].
    + destruct H as (H1 & H2 & _). unfold Fadd. split; [now apply fin_ok|]. rewrite Fval_fin by exact H2.
      rewrite H1. exact Hr.
    + destruct H as [H1 H2]. rewrite overflow_NE in H1. apply B2SF_inf in H1. unfold Fadd. rewrite H1.
      assert (Hy0 : B2R y <> 0).
      { intros E. rewrite E, Rplus_0_r, rnd_B2R in Hl. pose proof (B2R_lt x). lra. }
      rewrite H2, (Bsign_pos y Fy) by lra. split; [reflexivity|]. cbn [Fval]. lra.
  - destruct y as [| [|] | |]; try discriminate.
    + cbn [Fval] in Hv. pose proof pow1024_pos. lra.
    + destruct x; try discriminate; (split; [reflexivity|cbn [Fval] in *; cbn [Fadd Bplus Fval]; lra]).
Qed.
Lemma Fsub_nonneg x y : is_finite x = true -> is_finite y = true -> Fval y <= Fval x ->
  Fok (Fsub x y) /\ 0 <= Fval (Fsub x y).
Proof.
  intros Hx Fy Hv. rewrite (Fval_fin y Fy), (Fval_fin x Hx) in Hv. pose proof pow1024_pos as P.
  pose proof (Bminus_correct 53 1024 Hprec Hmax mode_NE x y Hx Fy) as H.
  assert (Hr : 0 <= rnd (B2R x - B2R y)) by (rewrite <- rnd_0 at 1; apply rnd_le; lra).
  destruct (Rlt_bool_spec (Rabs (rnd (B2R x - B2R y))) (bpow radix2 1024)) as [Hl|Hl].
  + destruct H as (H1 & H2 & _). unfold Fsub. split; [now apply fin_ok|]. rewrite Fval_fin by exact H2.
    rewrite H1. exact Hr.
  + destruct H as [H1 H2]. rewrite overflow_NE in H1. apply B2SF_inf in H1. unfold Fsub. rewrite H1.
    split; [reflexivity|].
    destruct (Rle_lt_dec (B2R x) 0) as [Hx0|Hx0].
    * destruct (Bsign x) eqn:Es; cbn [Fval]; [|lra].
      exfalso. symmetry in H2. apply negb_true_iff in H2.
      assert (B2R y < 0).
      { destruct (Rle_lt_dec 0 (B2R y)); auto. assert (B2R x = 0) by lra. assert (B2R y = 0) by lra.
        rewrite H, H0, Rminus_0_r, rnd_0, Rabs_R0 in Hl. lra. }
      rewrite (Bsign_val y Fy H) in H2. discriminate.
    * rewrite (Bsign_pos x Hx Hx0). cbn [Fval]. lra.
Qed.

Lemma tenth_fin : is_finite (Flit 1 10) = true. Proof. vm_compute. reflexivity. Qed.
Lemma tenth_sign : Bsign (Flit 1 10) = false. Proof. vm_compute. reflexivity. Qed.
Lemma tenth_pos : 0 < B2R (Flit 1 10).
Proof.
  pose proof tenth_fin as H1. pose proof tenth_sign as H2.
  assert (H3 : match Flit 1 10 with B754_finite _ _ _ _ => true | _ => false end = true) by (vm_compute; reflexivity).
  destruct (Flit 1 10) as [| | |s m e Hb]; try discriminate. cbn in H2; subst. cbn [B2R]. unfold F2R; cbn.
  apply Rmult_lt_0_compat; [apply IZR_lt; reflexivity|apply bpow_gt_0].
Qed.
Lemma Fmul_tenth_ok x : Fok x -> Fok (Fmul x (Flit 1 10)).
Proof.
  intros Hx. pose proof tenth_fin as H1. pose proof tenth_pos as H2. unfold Fmul.
  pose proof (Bmult_correct 53 1024 Hprec Hmax mode_NE x (Flit 1 10)) as H.
  destruct (is_finite x) eqn:Fx.
  - destruct (Rlt_bool _ _).
    + destruct H as (_ & H & _). apply fin_ok. rewrite H, H1. reflexivity.
    + rewrite overflow_NE in H. apply B2SF_inf in H. rewrite H. reflexivity.
  - destruct (Flit 1 10) as [| | |s m e Hb]; try discriminate; [cbn in H2; lra|]. destruct x; try discriminate; reflexivity.
Qed.
Lemma Fmul_tenth_nonneg x : Fok x -> 0 <= Fval x -> 0 <= Fval (Fmul x (Flit 1 10)).
Proof.
  intros Hx Hv. pose proof tenth_fin as H1. pose proof tenth_pos as H2. pose proof pow1024_pos as P. unfold Fmul.
  pose proof (Bmult_correct 53 1024 Hprec Hmax mode_NE x (Flit 1 10)) as H.
  destruct (is_finite x) eqn:Fx.
  - rewrite (Fval_fin x Fx) in Hv.
    assert (Hr : 0 <= rnd (B2R x * B2R (Flit 1 10))) by (rewrite <- rnd_0 at 1; apply rnd_le; nra).
    destruct (Rlt_bool_spec (Rabs (rnd (B2R x * B2R (Flit 1 10)))) (bpow radix2 1024)) as [Hl|Hl].
    + destruct H as (H & H' & _). rewrite Fval_fin by (rewrite H', H1; reflexivity). rewrite H. exact Hr.
    + rewrite overflow_NE in H. apply B2SF_inf in H. rewrite H.
      destruct (Rlt_dec 0 (B2R x)) as [Hp|Hp].
      * rewrite (Bsign_pos x Fx Hp), (Bsign_pos _ H1 H2). cbn [xorb Fval]. lra.
      * exfalso. assert (B2R x = 0) as E by lra. rewrite E, Rmult_0_l, rnd_0, Rabs_R0 in Hl. lra.
  - pose proof tenth_sign as H3. destruct x as [| [|] | |]; try discriminate; [cbn [Fval] in Hv; lra|].
    destruct (Flit 1 10) as [| | |s m e Hb]; try discriminate; [cbn in H2; lra|]. cbn in H3. subst.
    cbn [Bmult xorb Fval]. lra.
Qed.

(** Fattening never loses part of the box. *)
Lemma fat_bb_float (x : BB F) (v : Vec F) :
  is_finite (bl x) = true -> is_finite (bb x) = true -> is_finite (br x) = true -> is_finite (bt x) = true ->
  ordered x -> ok_vec v -> subbox x (fat_bb x v).
Proof.
  intros Fl Fb Fr Ft [Ho1 Ho2] [Vx Vy]. apply nle_iff in Ho1 as (_ & _ & Ho1). apply nle_iff in Ho2 as (_ & _ & Ho2).
  change (Fval (bl x) <= Fval (br x)) in Ho1. change (Fval (bb x) <= Fval (bt x)) in Ho2.
  destruct (Fsub_nonneg (br x) (bl x) Fr Fl Ho1) as [Kx Px].
  destruct (Fsub_nonneg (bt x) (bb x) Ft Fb Ho2) as [Ky Py].
  pose proof (Fmul_tenth_ok _ Kx) as Kdx. pose proof (Fmul_tenth_nonneg _ Kx Px) as Pdx.
  pose proof (Fmul_tenth_ok _ Ky) as Kdy. pose proof (Fmul_tenth_nonneg _ Ky Py) as Pdy.
  pose proof (Fmul_tenth_ok _ Vx) as Kvx. pose proof (Fmul_tenth_ok _ Vy) as Kvy.
  unfold subbox, fat_bb, vmult. cbn [bl bb br bt vx vy].
  cbn [nadd nsub nmul nmin nmax nneg nlit numF].
  set (dx := Fmul (Fsub (br x) (bl x)) (Flit 1 10)) in *.
  set (dy := Fmul (Fsub (bt x) (bb x)) (Flit 1 10)) in *.
  set (wx := Fmul (vx v) (Flit 1 10)) in *. set (wy := Fmul (vy v) (Flit 1 10)) in *.
  destruct (Fneg_spec dx Kdx) as [Nx Ex]. destruct (Fneg_spec dy Kdy) as [Ny Ey].
  destruct (Fmin_spec (Fopp dx) wx Nx Kvx) as [M1 M2]. destruct (Fmin_spec (Fopp dy) wy Ny Kvy) as [M3 M4].
  destruct (Fmax_spec dx wx Kdx Kvx) as [M5 M6]. destruct (Fmax_spec dy wy Kdy Kvy) as [M7 M8].
  pose proof (Rmin_l (Fval (Fopp dx)) (Fval wx)). pose proof (Rmin_l (Fval (Fopp dy)) (Fval wy)).
  pose proof (Rmax_l (Fval dx) (Fval wx)). pose proof (Rmax_l (Fval dy) (Fval wy)).
  destruct (Fadd_le (bl x) _ Fl M1) as [A1 A2]; [lra|].
  destruct (Fadd_le (bb x) _ Fb M3) as [A3 A4]; [lra|].
  destruct (Fadd_ge (br x) _ Fr M5) as [A5 A6]; [lra|].
  destruct (Fadd_ge (bt x) _ Ft M7) as [A7 A8]; [lra|].
  repeat match goal with |- _ /\ _ => split end; apply nle_iff; repeat split; auto; now apply fin_ok.
Qed.

Lemma fat_bb_real (x : BB R) (v : Vec R) : ordered x -> subbox x (fat_bb x v).
Proof.
  intros [H1 H2]. apply Rleb_true in H1, H2. unfold subbox, fat_bb, vmult. cbn [bl bb br bt vx vy].
  cbn [nadd nsub nmul nmin nmax nneg nlit nleb numR].
  set (dx := (br x - bl x) * (IZR 1 / IZR 10)). set (dy := (bt x - bb x) * (IZR 1 / IZR 10)).
  assert (0 <= dx) by (unfold dx; lra). assert (0 <= dy) by (unfold dy; lra).
  pose proof (Rmin_l (- dx) (vx v * (1/10))). pose proof (Rmin_l (- dy) (vy v * (1/10))).
  pose proof (Rmax_l dx (vx v * (1/10))). pose proof (Rmax_l dy (vy v * (1/10))).
  repeat match goal with |- _ /\ _ => split end; apply Rleb_true; lra.
Qed.
