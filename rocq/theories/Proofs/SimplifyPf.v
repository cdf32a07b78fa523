(** SimplifyVertexes over the reals. *)
From Coq Require Import Reals ZArith List Arith Bool Lia Lra.
From Verif Require Import Num Spec SpecShapes SpecPolyline.
From Verif.Model Require Import Vector Hull Polyline.
From Verif.Proofs Require Import RTac Geom ShapePf HullGeo PolylinePf CurvesPf CurvesTop.
Import ListNotations.
Local Open Scope R_scope.

Lemma subseq_refl {A} (l : list A) : subseq l l.
Proof. induction l; [apply sub_nil|apply sub_keep; auto]. Qed.
Lemma subseq_app {A} (a b c d : list A) : subseq a b -> subseq c d -> subseq (a ++ c) (b ++ d).
Proof. intros S1 S2. induction S1; cbn; [auto|apply sub_skip; auto|apply sub_keep; auto]. Qed.
Lemma subseq_snoc {A} (a b : list A) x : subseq a b -> subseq a (b ++ [x]).
Proof. intros S. replace a with (a ++ []) by apply app_nil_r. apply subseq_app; auto. apply sub_skip, sub_nil. Qed.
Lemma subseq_drop {A} (a : list A) x b : subseq (a ++ [x]) b -> subseq a b.
Proof. intros S. remember (a ++ [x]) as m eqn:E. revert a E. induction S as [|y l m S IH|y l m S IH]; intros a E.
  - destruct a; discriminate.
  - apply sub_skip. now apply IH.
  - destruct a as [|z a]; cbn in E; injection E as <- E.
    + clear. apply sub_skip. induction m; [apply sub_nil|apply sub_skip; auto].
    + subst l. apply sub_keep. now apply IH. Qed.
(** the loop: [done] is what was read, the reduced line is a subsequence of it with the same first and last vertex *)
Lemma loop_inv ms : forall (vs red done_ : list RV) q p r r', red = q :: p :: r -> subseq (rev red) done_ -> hd_error (rev red) = hd_error done_ -> vlast done_ = Some q ->
  simplify_loop ms vs red = Val r' -> (2 <= length r')%nat /\ subseq (rev r') (done_ ++ vs) /\ hd_error (rev r') = hd_error (done_ ++ vs) /\ hd_error r' = vlast (done_ ++ vs).
Proof.
  induction vs as [|v vs IH]; intros red d q p r r' Er S Hh Hl E; subst red; cbn [simplify_loop] in E.
  - injection E as <-. rewrite app_nil_r. cbn [length hd_error]. repeat split; auto. lia.
  - assert (D : d <> []) by (intros ->; discriminate).
    assert (HD : hd_error (d ++ [v]) = hd_error d) by (destruct d; [contradiction|reflexivity]).
    assert (LD : vlast (d ++ [v]) = Some v) by (apply vlast_some; eauto).
    replace (d ++ v :: vs) with ((d ++ [v]) ++ vs) by (rewrite <- app_assoc; reflexivity).
    assert (HP : forall x, hd_error (rev (x :: p :: r)) = hd_error (rev (p :: r))) by (intros x; cbn [rev]; destruct (rev r); reflexivity).
    destruct (nleb _ ms).
    + eapply IH; [reflexivity| | |exact LD|exact E].
      * cbn [rev] in *. apply subseq_app; [|apply subseq_refl]. eapply subseq_drop; exact S.
      * rewrite HD, <- Hh. rewrite !HP. reflexivity.
    + eapply IH; [reflexivity| | |exact LD|exact E].
      * change (rev (v :: q :: p :: r)) with (rev (q :: p :: r) ++ [v]). apply subseq_app; [exact S|apply subseq_refl].
      * rewrite HD, <- Hh. change (rev (v :: q :: p :: r)) with (rev (q :: p :: r) ++ [v]). destruct (rev (q :: p :: r)) eqn:Q; [|reflexivity]. apply (f_equal (@length RV)) in Q. rewrite rev_length in Q. discriminate.
Qed.
Lemma loop_total ms : forall (vs : list RV) q p r, exists r', simplify_loop ms vs (q :: p :: r) = Val r'.
Proof. induction vs as [|v vs IH]; intros; cbn [simplify_loop]; [eauto|]. destruct (nleb _ ms); apply IH. Qed.

(** what SimplifyVertexes returns: the reduced line, or, for a closed line, that line with its first vertex replaced by its last but one *)
Lemma simplify_shape (tol : R) (l : list RV) : (2 <= length l)%nat -> exists m, subseq m l /\ hd_error m = hd_error l /\ vlast m = vlast l /\ (2 <= length m)%nat /\
  (simplify_vertexes tol l = Val m \/ is_closed l = true /\ exists a b p x t, m = a :: b :: t /\ m = x ++ [p; a] /\ simplify_vertexes tol l = Val (p :: b :: t)).
Proof.
  intros L. destruct l as [|v0 [|v1 vs]]; try (cbn in L; lia). set (ms := nneg (ncos tol)).
  destruct (loop_total ms vs v1 v0 []) as [red E]. destruct (loop_inv ms vs [v1; v0] [v0; v1] v1 v0 [] red eq_refl (subseq_refl _) eq_refl eq_refl E) as (L2 & S & Hh & Hl).
  assert (VR : forall a : list RV, vlast (rev a) = hd_error a) by (intros [|x a]; [reflexivity|]; cbn [rev hd_error]; apply vlast_some; eauto).
  exists (rev red). cbn [app] in *. split; [exact S|]. split; [exact Hh|]. split; [now rewrite VR|]. split; [now rewrite rev_length|].
  unfold simplify_vertexes. fold ms. rewrite E. cbn [rbind]. destruct red as [|q [|p r]]; try (cbn in L2; lia). destruct (rev (q :: p :: r)) as [|a [|b t]] eqn:R; try (apply (f_equal (@length RV)) in R; rewrite rev_length in R; cbn in R; lia).
  destruct (is_closed (v0 :: v1 :: vs)) eqn:C; cbn [andb]; [|now left]. destruct (nltb _ ms); [|now left]. right. split; [reflexivity|]. exists a, b, p, (rev r), t. split; [reflexivity|]. split; [|reflexivity].
  rewrite <- R. cbn [rev]. rewrite <- app_assoc. cbn [app]. do 2 f_equal. apply closed_iff in C as (v & w & Cl). f_equal. cbn [hd_error] in Hh, Hl. injection Hh as ->. assert (X : vlast (v0 :: v1 :: vs) = Some v0).
  { rewrite Cl in *. injection Cl as -> _. change (v :: w ++ [v]) with ((v :: w) ++ [v]). apply vlast_some. eauto. } congruence.
Qed.

(** the angle test *)
Lemma sharp_eq (a b c : RV) : sharpness a b c = - inner (vminus b a) (vminus c b) / ((dist a b + 1 / 1000000000000000) * (dist b c + 1 / 1000000000000000)).
Proof.
  unfold sharpness. vdi. rewrite !normalize_eq. change (norm (vsub a b)) with (dist a b). replace (norm (vsub c b)) with (dist b c) by (unfold dist, dist2, norm, norm2, vsub; unR; cbn [vx vy]; f_equal; ring).
  pose proof (dist_ge0 a b). pose proof (dist_ge0 b c). unfold inner, vscale, vminus, vsub. unR. cbn [vx vy]. field. split; lra.
Qed.
Lemma keeps (a b c : RV) tol : 0 <= cos tol -> inner (vminus b a) (vminus c b) < cos tol * (dist a b * dist b c) -> - cos tol < sharpness a b c.
Proof.
  intros C I. rewrite sharp_eq. set (e := 1 / 1000000000000000). assert (Ep : 0 < e) by (unfold e; lra). pose proof (dist_ge0 a b). pose proof (dist_ge0 b c). set (d1 := dist a b) in *. set (d2 := dist b c) in *.
  assert (P : 0 < (d1 + e) * (d2 + e)) by (apply Rmult_lt_0_compat; lra). apply Rmult_lt_reg_r with ((d1 + e) * (d2 + e)); auto. unfold Rdiv. rewrite Rmult_assoc, Rinv_l by lra. assert (cos tol * (d1 * d2) <= cos tol * ((d1 + e) * (d2 + e))). { apply Rmult_le_compat_l; auto. apply Rmult_le_compat; lra. } lra.
Qed.
Lemma loop_keeps (tol : R) : 0 <= cos tol -> forall (vs : list RV) q p r, (forall a b c x y, rev r ++ p :: q :: vs = x ++ a :: b :: c :: y -> inner (vminus b a) (vminus c b) < cos tol * (dist a b * dist b c)) ->
  simplify_loop (- cos tol) vs (q :: p :: r) = Val (rev vs ++ q :: p :: r).
Proof.
  intros C. induction vs as [|v vs IH]; intros q p r K; cbn [simplify_loop]; [reflexivity|]. replace (nleb (sharpness p q v) (- cos tol)) with false.
  - rewrite IH; [cbn [rev]; now rewrite <- app_assoc|]. intros a b c x y E. apply (K a b c x y). rewrite <- E. cbn [rev]. rewrite <- app_assoc. reflexivity.
  - symmetry. unR. apply Rleb_false. apply keeps; auto. apply (K p q v (rev r) vs). reflexivity.
Qed.
Lemma simplify_id (tol : R) (l : list RV) : 0 <= cos tol -> (2 <= length l)%nat -> (forall a b c x y, l = x ++ a :: b :: c :: y -> inner (vminus b a) (vminus c b) < cos tol * (dist a b * dist b c)) ->
  (forall p a b x y, l = x ++ [p; a] -> l = a :: b :: y -> inner (vminus a p) (vminus b a) < cos tol * (dist p a * dist a b)) -> simplify_vertexes tol l = Val l.
Proof.
  intros C L K W. destruct l as [|v0 [|v1 vs]]; try (cbn in L; lia). unfold simplify_vertexes. unR. rewrite (loop_keeps tol C vs v1 v0 []) by exact K. cbn [rbind]. set (red := rev vs ++ [v1; v0]).
  assert (RR : rev red = v0 :: v1 :: vs) by (unfold red; rewrite rev_app_distr, rev_involutive; reflexivity). rewrite RR.
  destruct red as [|q [|p r]] eqn:Er; try (apply (f_equal (@length RV)) in RR; cbn in RR; lia). destruct (is_closed _) eqn:Cl; cbn [andb]; [|reflexivity].
  replace (Rltb _ _) with false; [reflexivity|]. symmetry. apply Rltb_false. left. apply keeps; auto.
  assert (Q : q = v0). { apply closed_iff in Cl as (v & w & E). cbn [rev] in RR. rewrite <- app_assoc in RR. cbn in RR. rewrite E in RR. assert (v0 = v) by congruence. subst v. change (v0 :: w ++ [v0]) with ((v0 :: w) ++ [v0]) in RR. change (rev r ++ [p; q]) with (rev r ++ [p] ++ [q]) in RR. rewrite app_assoc in RR. apply app_inj_tail in RR. tauto. }
  subst q. apply (W p v0 v1 (rev r) vs); [|reflexivity]. rewrite <- RR. cbn [rev]. rewrite <- app_assoc. reflexivity.
Qed.
