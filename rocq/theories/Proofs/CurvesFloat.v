(** IsShort in binary64: adding a distance that is too small to count. *)
From Coq Require Import Reals ZArith List Arith Bool Lia Lra.
From Flocq Require Import IEEE754.BinarySingleNaN Core.
From Verif Require Import Num Spec.
From Verif.Model Require Import Vector Hull Polyline.
From Verif.Proofs Require Import FloatMono.
Import ListNotations.
Local Open Scope R_scope.

(** sums below [q] stay below it when adding [d] to [q] changes nothing *)
Lemma stagnate (q d x : F) : is_finite q = true -> is_finite d = true -> 0 <= B2R d -> Feqb (Fadd q d) q = true -> is_finite x = true -> 0 <= B2R x <= B2R q ->
  is_finite (Fadd x d) = true /\ 0 <= B2R (Fadd x d) <= B2R q.
Proof.
  intros Fq Fd Hd Eq Fx Hx.
  assert (LIM : forall y, is_finite y = true -> 0 <= B2R y <= B2R q -> Rabs (rnd (B2R y + B2R d)) < bpow radix2 1024 -> is_finite (Fadd y d) = true /\ B2R (Fadd y d) = rnd (B2R y + B2R d)).
  { intros y Fy Hy L. pose proof (Bplus_correct 53 1024 Hprec Hmax mode_NE y d Fy Fd) as H. rewrite Rlt_bool_true in H by exact L. destruct H as (H1 & H2 & _). split; [exact H2|exact H1]. }
  assert (Lq : Rabs (rnd (B2R q + B2R d)) < bpow radix2 1024).
  { pose proof (Bplus_correct 53 1024 Hprec Hmax mode_NE q d Fq Fd) as H. destruct (Rlt_bool_spec (Rabs (rnd (B2R q + B2R d))) (bpow radix2 1024)) as [L|L]; [exact L|]. exfalso. destruct H as [H1 _]. rewrite overflow_NE in H1. apply B2SF_inf in H1. unfold Fadd in Eq. rewrite H1 in Eq. clear - Eq Fq. destruct q; try discriminate; destruct (Bsign _) in Eq; discriminate. }
  destruct (LIM q Fq ltac:(lra) Lq) as [Fs Es]. assert (Eqr : B2R (Fadd q d) = B2R q).
  { unfold Feqb in Eq. rewrite Beqb_correct in Eq by assumption. destruct (Req_bool_spec (B2R (Fadd q d)) (B2R q)); [assumption|discriminate]. }
  assert (U : rnd (B2R x + B2R d) <= B2R q) by (rewrite <- Eqr, Es; apply rnd_le; lra). assert (Lo : 0 <= rnd (B2R x + B2R d)) by (rewrite <- rnd_0; apply rnd_le; lra).
  destruct (LIM x Fx Hx) as [Fxd Exd]; [|split; [exact Fxd|rewrite Exd; lra]]. rewrite Rabs_pos_eq by exact Lo. eapply Rle_lt_trans; [exact U|]. eapply Rle_lt_trans; [apply Rle_abs|apply B2R_lt].
Qed.
Lemma short_hangs (l : list (Vec F)) count i e mn v w (q : F) : i <> e -> nth_error l i = Some v -> nth_error l (next i count) = Some w ->
  is_finite q = true -> is_finite (vdist v w) = true -> 0 <= B2R (vdist v w) -> Feqb (Fadd q (vdist v w)) q = true -> is_finite mn = true -> B2R q <= B2R mn ->
  forall n x, is_finite x = true -> 0 <= B2R x <= B2R q -> short_loop n l count i e mn x = Out.
Proof.
  intros NE Ev Ew Fq Fd Hd Eq Fm Hm. induction n as [|n IH]; intros x Fx Hx; [reflexivity|]. cbn [short_loop]. destruct (Nat.eqb_spec i e); [contradiction|]. rewrite Ev, Ew. cbn [lift rbind].
  destruct (stagnate q (vdist v w) x Fq Fd Hd Eq Fx Hx) as [A B]. change (nadd x (vdist v w)) with (Fadd x (vdist v w)). change (nltb mn (Fadd x (vdist v w))) with (Fltb mn (Fadd x (vdist v w))).
  unfold Fltb. rewrite Bltb_correct by assumption. rewrite Rlt_bool_false by lra. now apply IH.
Qed.
