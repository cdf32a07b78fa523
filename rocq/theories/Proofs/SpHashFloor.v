(** floor of spacehash.go and the cells of a box. *)
From Coq Require Import Reals ZArith Bool List Arith Lra Lia.
From Flocq Require Import IEEE754.BinarySingleNaN Core.
From Verif Require Import Num Spec SpecSpaceHash.
From Verif.Model Require Import Vector BB SpaceHash.
From Verif.Proofs Require Import BBOrder FloatMono RTac.
Import ListNotations.
Local Open Scope R_scope.
Local Instance vexp' : Valid_exp (SpecFloat.fexp 53 1024) := fexp_correct 53 1024 Hprec.
Lemma gfloor_R (x : R) : gfloor x = Zfloor x.
Proof.
  unfold gfloor, nzero. cbn [nlit nltb neqb ntrunc numR]. unfold Rltb, Reqb. destruct (Rlt_dec x 0) as [L|L]; cbn [andb].
  - rewrite Ztrunc_ceil by lra. destruct (Req_EM_T (IZR (Zceil x)) x) as [E|E]; cbn [negb].
    + rewrite <- E at 2. now rewrite Zfloor_IZR.
    + rewrite (Zceil_floor_neq x) by (intros Q; apply E; rewrite <- Q; now rewrite Zceil_IZR). lia.
  - apply Ztrunc_floor. lra.
Qed.
Lemma trunc_round (x : R) : IZR (Ztrunc x) = round radix2 (FIX_exp 0) Ztrunc x.
Proof. unfold round, scaled_mantissa, F2R, cexp, FIX_exp. cbn [Fnum Fexp bpow Z.opp]. now rewrite !Rmult_1_r. Qed.
Lemma trunc_format (x : F) : generic_format radix2 (SpecFloat.fexp 53 1024) (IZR (Ztrunc (B2R x))).
Proof. rewrite trunc_round. apply generic_round_generic; [exact vexp'|apply FIX_exp_valid|apply valid_rnd_ZR|apply generic_format_B2R]. Qed.
Lemma trunc_abs (x : R) : Rabs (IZR (Ztrunc x)) <= Rabs x.
Proof.
  rewrite <- abs_IZR, <- Ztrunc_abs. rewrite Ztrunc_floor by apply Rabs_pos. apply Zfloor_lb.
Qed.
Lemma F_of_trunc (x : F) : let i := Ztrunc (B2R x) in is_finite (F_of_Z i) = true /\ B2R (F_of_Z i) = IZR i.
Proof.
  cbv zeta. pose proof (binary_normalize_correct 53 1024 Hprec Hmax mode_NE (Ztrunc (B2R x)) 0 false) as C. cbv zeta in C.
  assert (E : @F2R radix2 {| Fnum := Ztrunc (B2R x); Fexp := 0 |} = IZR (Ztrunc (B2R x)) :> R) by (unfold F2R; cbn; apply Rmult_1_r). rewrite E in C.
  rewrite round_generic in C; [|apply valid_rnd_round_mode|apply trunc_format]. rewrite Rlt_bool_true in C by (eapply Rle_lt_trans; [apply trunc_abs|apply B2R_lt]). destruct C as (A & B & _). split; [exact B|exact A].
Qed.
Lemma one_val : B2R (F_of_Z 1) = 1.
Proof.
  pose proof (binary_normalize_correct 53 1024 Hprec Hmax mode_NE 1 0 false) as C. cbv zeta in C. assert (E : @F2R radix2 {| Fnum := 1; Fexp := 0 |} = 1 :> R) by (unfold F2R; cbn; lra). rewrite E in C.
  assert (G : generic_format radix2 (SpecFloat.fexp 53 1024) 1) by (change 1 with (bpow radix2 0); apply generic_format_bpow; cbv; discriminate). rewrite round_generic in C; [|apply valid_rnd_round_mode|exact G]. rewrite Rlt_bool_true in C; [apply C|]. rewrite Rabs_R1. change 1 with (bpow radix2 0). apply bpow_lt. lia.
Qed.
Lemma Flit_trunc (x : F) : let i := Ztrunc (B2R x) in is_finite (Flit i 1) = true /\ B2R (Flit i 1) = IZR i.
Proof.
  cbv zeta. destruct (F_of_trunc x) as [A B]. unfold Flit, Fdiv. pose proof (Bdiv_correct 53 1024 Hprec Hmax mode_NE (F_of_Z (Ztrunc (B2R x))) (F_of_Z 1)) as C. rewrite one_val in C. specialize (C R1_neq_R0). rewrite B in C. unfold Rdiv in C. rewrite Rinv_1, Rmult_1_r in C.
  rewrite round_generic in C; [|apply valid_rnd_round_mode|apply trunc_format]. rewrite Rlt_bool_true in C by (eapply Rle_lt_trans; [apply trunc_abs|apply B2R_lt]). destruct C as (X & Y & _). split; [rewrite Y; exact A|exact X].
Qed.
Lemma gfloor_F (x : F) : is_finite x = true -> gfloor x = Zfloor (B2R x).
Proof.
  intros Fx. unfold gfloor. cbn [nltb neqb ntrunc nlit numF]. assert (Et : Btrunc x = Ztrunc (B2R x)). { apply eq_IZR. rewrite Btrunc_correct by exact Hmax. symmetry. apply trunc_round. } rewrite Et.
  destruct (Flit_trunc x) as [A B]. assert (L : Fltb x nzero = Rltb (B2R x) 0).
  { change (Fltb x nzero) with (nltb x nzero). rewrite nltb_val; [|now apply fin_ok|apply nlit0_ok]. unfold nzero. rewrite nlit0_val. cbn [val]. now rewrite Fval_fin. }
  rewrite L. assert (Q : Feqb (Flit (Ztrunc (B2R x)) 1) x = Reqb (IZR (Ztrunc (B2R x))) (B2R x)).
  { change (Feqb (Flit (Ztrunc (B2R x)) 1) x) with (neqb (Flit (Ztrunc (B2R x)) 1) x). rewrite neqb_val; [|now apply fin_ok|now apply fin_ok]. cbn [val]. rewrite !Fval_fin by assumption. now rewrite B. }
  rewrite Q. rewrite <- gfloor_R. reflexivity.
Qed.
(** coordinates whose cell number is an int *)
Definition fits_F (dim c : F) : Prop := is_finite c = true /\ Rabs (B2R c / B2R dim) <= bpow radix2 62.
Lemma div_fits dim c : 0 < B2R dim -> fits_F dim c -> is_finite (Fdiv c dim) = true /\ B2R (Fdiv c dim) = rnd (B2R c / B2R dim).
Proof.
  intros P [Fc L]. pose proof (Bdiv_correct 53 1024 Hprec Hmax mode_NE c dim ltac:(lra)) as C. rewrite Rlt_bool_true in C.
  - destruct C as (A & B & _). split; [unfold Fdiv; now rewrite B|exact A].
  - assert (G : generic_format radix2 (SpecFloat.fexp 53 1024) (bpow radix2 62)) by (apply generic_format_bpow; cbv; discriminate).
    apply Rle_lt_trans with (bpow radix2 62); [|apply bpow_lt; lia]. apply abs_round_le_generic; [exact vexp'|apply valid_rnd_round_mode|exact G|exact L].
Qed.
Lemma cell_mono_F (dim a b : F) : is_finite dim = true -> 0 < B2R dim -> fits_F dim a -> fits_F dim b -> nleb a b = true -> (gfloor (Fdiv a dim) <= gfloor (Fdiv b dim))%Z.
Proof.
  intros Fd P A B L. destruct (div_fits dim a P A) as [A1 A2], (div_fits dim b P B) as [B1 B2]. rewrite !gfloor_F by assumption. apply Zfloor_le. rewrite A2, B2. apply rnd_le.
  destruct A as [Fa _], B as [Fb _]. rewrite nleb_val in L by (now apply fin_ok). cbn [val] in L. rewrite !Fval_fin in L by assumption. unfold Rleb in L. destruct (Rle_dec (B2R a) (B2R b)); [|discriminate]. apply Rmult_le_compat_r; [|assumption]. left. now apply Rinv_0_lt_compat.
Qed.
Lemma cell_mono_R (dim a b : R) : 0 < dim -> nleb a b = true -> (gfloor (a / dim)%R <= gfloor (b / dim)%R)%Z.
Proof. intros P L. rewrite !gfloor_R. apply Zfloor_le. cbn [nleb numR] in L. unfold Rleb in L. destruct (Rle_dec a b); [|discriminate]. apply Rmult_le_compat_r; [|assumption]. left. now apply Rinv_0_lt_compat. Qed.
Lemma zrange_in lo hi z : In z (zrange lo hi) <-> (lo <= z <= hi)%Z.
Proof.
  unfold zrange. rewrite in_map_iff. split.
  - intros (k & <- & K). apply in_seq in K. lia.
  - intros B. exists (Z.to_nat (z - lo)). split; [lia|]. apply in_seq. lia.
Qed.
Lemma cells_in {T} {NT : Num T} (dim : T) x i j : In (i, j) (cells dim x) <-> (gfloor (ndiv (bl x) dim) <= i <= gfloor (ndiv (br x) dim))%Z /\ (gfloor (ndiv (bb x) dim) <= j <= gfloor (ndiv (bt x) dim))%Z.
Proof.
  unfold cells. rewrite in_flat_map. split.
  - intros (k & K & Q). apply in_map_iff in Q as (l & [= <- <-] & L). apply zrange_in in K, L. auto.
  - intros [A B]. exists i. split; [now apply zrange_in|]. apply in_map_iff. exists j. split; [reflexivity|now apply zrange_in].
Qed.
Section G.
Context {T : Type} {NT : Num T}.
Variables (dim : T) (fits : T -> Prop).
Hypothesis mono : forall a b, fits a -> fits b -> nleb a b = true -> (gfloor (ndiv a dim) <= gfloor (ndiv b dim))%Z.
Definition on_grid (x : BB T) : Prop := (fits (bl x) /\ fits (br x) /\ fits (bb x) /\ fits (bt x)) /\ nleb (bl x) (br x) = true /\ nleb (bb x) (bt x) = true.
Lemma intersect_share n x y : on_grid x -> on_grid y -> bb_intersects x y = true -> share dim n x y.
Proof.
  intros ((A1 & A2 & A3 & A4) & A5 & A6) ((B1 & B2 & B3 & B4) & B5 & B6) I. unfold bb_intersects in I. apply andb_prop in I as [I I4]. apply andb_prop in I as [I I3]. apply andb_prop in I as [I1 I2].
  pose proof (mono _ _ A1 A2 A5). pose proof (mono _ _ A3 A4 A6). pose proof (mono _ _ B1 B2 B5). pose proof (mono _ _ B3 B4 B6). pose proof (mono _ _ A1 B2 I1). pose proof (mono _ _ B1 A2 I2). pose proof (mono _ _ A3 B4 I3). pose proof (mono _ _ B3 A4 I4).
  exists (slot n (Z.max (gfloor (ndiv (bl x) dim)) (gfloor (ndiv (bl y) dim)), Z.max (gfloor (ndiv (bb x) dim)) (gfloor (ndiv (bb y) dim)))). split; apply in_map; apply cells_in; lia.
Qed.
End G.
