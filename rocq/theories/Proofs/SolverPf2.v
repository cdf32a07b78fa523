From Coq Require Import Reals ZArith Bool List Lra Lia Permutation.
From Flocq Require Import IEEE754.BinarySingleNaN Core.
From Verif Require Import Num Spec SpecBody SpecSolver.
From Verif.Model Require Import Vector BB Transform Body Solver.
From Verif.Proofs Require Import RTac BBOrder FloatMono Geom BodyPf SolverPf.
Import ListNotations.
Local Open Scope R_scope.

(** ** C34 *)
Lemma Fmax0_ok (x : F) : Fok (Fmax x (Flit 0 1)) -> Fleb (Flit 0 1) (Fmax x (Flit 0 1)) = true.
Proof.
  intros H. destruct (is_nan x) eqn:E.
  - destruct x; discriminate.
  - change Fok with (@ok F _ _) in *. change Fleb with (@nleb F _). change Fmax with (@nmax F _). change Flit with (@nlit F _).
    apply nmax0_le. exact E.
Qed.
Lemma Fmul_nonneg (x y : F) : Fleb (Flit 0 1) x = true -> Fleb (Flit 0 1) y = true -> Fok (Fmul x y) -> Fleb (Flit 0 1) (Fmul x y) = true.
Proof.
  intros Hx Hy Ho. pose proof pow1024_pos as P.
  destruct (Fleb_ok _ _ Hx) as [K0 Kx]. destruct (Fleb_ok _ _ Hy) as [_ Ky].
  rewrite Fleb_val in * by auto. apply Rleb_true in Hx, Hy. apply Rleb_true.
  replace (Fval (Flit 0 1)) with 0 in * by reflexivity. unfold Fmul in *.
  pose proof (Bmult_correct 53 1024 Hprec Hmax mode_NE x y) as H.
  destruct (is_finite x) eqn:Fx; [destruct (is_finite y) eqn:Fy|].
  - rewrite (Fval_fin x Fx) in Hx. rewrite (Fval_fin y Fy) in Hy.
    assert (Hr : 0 <= rnd (B2R x * B2R y)) by (rewrite <- rnd_0 at 1; apply rnd_le; nra).
    destruct (Rlt_bool_spec (Rabs (rnd (B2R x * B2R y))) (bpow radix2 1024)) as [Hl|Hl].
    + destruct H as (H & H' & _). rewrite Fval_fin by (rewrite H'; reflexivity). rewrite H. exact Hr.
    + rewrite overflow_NE in H. apply B2SF_inf in H. rewrite H.
      assert (HH : B2R x <> 0 /\ B2R y <> 0).
      { split; intro E; rewrite E, ?Rmult_0_l, ?Rmult_0_r, rnd_0, Rabs_R0 in Hl; lra. }
      rewrite (Bsign_pos x Fx), (Bsign_pos y Fy) by lra. cbn [xorb Fval]. lra.
  - destruct y as [| [|] | |]; try discriminate; [cbn [Fval] in Hy; lra|].
    destruct x as [s|s| |s m e Hb]; try discriminate.
    destruct s; [exfalso; rewrite (Fval_fin _ Fx) in Hx; cbn [B2R] in Hx; apply Rle_not_lt in Hx; apply Hx; apply F2R_lt_0; reflexivity|].
    cbn [Bmult xorb Fval]. lra.
  - destruct x as [| [|] | |]; try discriminate; [cbn [Fval] in Hx; lra|].
    destruct y as [s|[|]| |s m e Hb]; try discriminate; try (cbn [Bmult xorb Fval]; lra); try (cbn [Fval] in Hy; lra).
    destruct s; [exfalso; change (0 <= B2R (B754_finite true m e Hb)) in Hy; cbn [B2R] in Hy; apply Rle_not_lt in Hy; apply Hy; apply F2R_lt_0; reflexivity|].
    cbn [Bmult xorb Fval]. lra.
Qed.
Lemma nmax_zero_R (x : R) : nleb (nzero : R) (nmax x nzero) = true.
Proof. unR. rbool. apply Rmax_r. Qed.

Section AdmStep.
Context {T : Type} `{OT : OrdNum T}.
(** what one contact step leaves, in terms of the order of the arithmetic *)
Lemma contact_step_adm n surf u a b (c : Contact T) :
  let '(_, _, c') := contact_step n surf u a b c in
  (exists x, c_jnAcc c' = nmax x nzero) /\ (exists x, c_jBias c' = nmax x nzero) /\
  (nleb nzero (nmul u (c_jnAcc c')) = true ->
   nleb (nneg (nmul u (c_jnAcc c'))) (c_jtAcc c') = true /\ nleb (c_jtAcc c') (nmul u (c_jnAcc c')) = true).
Proof.
  unfold contact_step. cbv zeta. destruct (apply_bias_impulses _ _ _ _ _). destruct (apply_impulses _ _ _ _ _). cbn [c_jnAcc c_jBias c_jtAcc].
  repeat match goal with |- _ /\ _ => split end; eauto. intros H. apply nclamp_bounds. now apply neg_le_self.
Qed.
Definition adm0 (u : T) (c : Contact T) : Prop :=
  (exists x, c_jnAcc c = nmax x nzero) /\ (exists x, c_jBias c = nmax x nzero) /\
  (nleb nzero (nmul u (c_jnAcc c)) = true ->
   nleb (nneg (nmul u (c_jnAcc c))) (c_jtAcc c) = true /\ nleb (c_jtAcc c) (nmul u (c_jnAcc c)) = true).
Lemma contacts_step_adm n surf u l : forall a b, let '(_, _, l') := contacts_step (T := T) n surf u a b l in Forall (adm0 u) l'.
Proof.
  induction l as [|c l IH]; intros a b; cbn [contacts_step]; [constructor|].
  pose proof (contact_step_adm n surf u a b c) as Hc. destruct (contact_step n surf u a b c) as [[a1 b1] c1].
  specialize (IH a1 b1). destruct (contacts_step n surf u a1 b1 l) as [[a2 b2] l2]. constructor; assumption.
Qed.
Lemma arb_iter_u worlds : forall arb : Arb T, ar_u (arb_iterations arb worlds) = ar_u arb.
Proof.
  induction worlds as [|[a b] w IH]; intros; cbn; auto. unfold arb_apply_impulse.
  destruct (contacts_step _ _ _ _ _ _) as [[a1 b1] l1]. rewrite IH. reflexivity.
Qed.
Lemma arb_iterations_adm worlds : forall arb : Arb T, worlds <> [] -> Forall (adm0 (ar_u arb)) (ar_contacts (arb_iterations arb worlds)).
Proof.
  induction worlds as [|[a b] w IH]; intros arb Hw; [contradiction|]. cbn [arb_iterations]. unfold arb_apply_impulse.
  pose proof (contacts_step_adm (ar_n arb) (ar_surf arb) (ar_u arb) (ar_contacts arb) a b) as Hc.
  destruct (contacts_step _ _ _ a b _) as [[a1 b1] l1]. destruct w as [|p w].
  - exact Hc.
  - change (ar_u arb) with (ar_u (arb_with arb l1)). apply IH. discriminate.
Qed.
End AdmStep.

(** ** C37 *)
Section Clamped.
Context {T : Type} `{OT : OrdNum T}.
Lemma nabs_bound (x m : T) : nleb (nneg m) x = true -> nleb x m = true -> nleb nzero (nabs x) = true /\ nleb (nabs x) m = true.
Proof.
  intros H1 H2. destruct (nleb_ok _ _ H2) as [Kx Km]. destruct (nleb_ok _ _ H1) as [Kn _].
  rewrite nleb_val in H1, H2 by auto. apply Rleb_true in H1, H2. rewrite nneg_val in H1 by auto. unfold nzero.
  rewrite !nleb_val by auto using nabs_ok, nlit0_ok. rewrite !Rleb_true, nabs_val, nlit0_val by auto.
  split; [apply Rabs_pos|]. apply Rabs_le. lra.
Qed.
Lemma clamp_abs (x m : T) : nleb nzero m = true -> nleb nzero (nabs (nclamp x (nneg m) m)) = true /\ nleb (nabs (nclamp x (nneg m) m)) m = true.
Proof. intros H. apply nabs_bound; apply nclamp_bounds; now apply neg_le_self. Qed.
Lemma le_trans (x y z : T) : nleb x y = true -> nleb y z = true -> nleb x z = true.
Proof. rewrite !nle_iff. intros (? & ? & ?) (? & ? & ?). repeat split; auto. lra. Qed.
Lemma clamp_abs_hi (x m : T) : nleb nzero m = true -> nleb nzero (nabs (nclamp x nzero m)) = true /\ nleb (nabs (nclamp x nzero m)) m = true.
Proof.
  intros H. destruct (nclamp_bounds x nzero m H). apply nabs_bound; auto. eapply le_trans; [|eassumption]. now apply neg_le_zero.
Qed.
Lemma clamp_abs_lo (x m k : T) : nleb nzero m = true -> nleb (nneg m) k = true -> nleb k nzero = true ->
  nleb nzero (nabs (nclamp x k nzero)) = true /\ nleb (nabs (nclamp x k nzero)) m = true.
Proof.
  intros H H2 H3. destruct (nclamp_bounds x k nzero H3). apply nabs_bound; auto; eapply le_trans; eassumption.
Qed.
Lemma abs_zero_le (m : T) : nleb nzero m = true -> nleb nzero (nabs nzero) = true /\ nleb (nabs nzero) m = true.
Proof. intros H. apply nabs_bound; auto. now apply neg_le_zero. Qed.

Definition within (m : T) (j : @Joint T) : Prop := nleb nzero (j_impulse j) = true /\ nleb (j_impulse j) m = true.
(** joints whose accumulated impulse is a clamped scalar *)
Definition scalar_joint (j : @Joint T) : bool := match j with JPin _ | JGear _ | JRotary _ | JMotor _ => true | _ => false end.
(** a joint that either rewrites its accumulator in each iteration or keeps one within bounds *)
Definition idle_ok (m : T) (j : @Joint T) : Prop :=
  match j with JRotary j' => neqb (ro_bias j') nzero = true -> within m j | JSlide j' => vequal (sl_n j') vzero = true -> within m j
  | JRatchet j' => neqb (ra_bias j') nzero = true -> within m j | _ => True end.
Lemma scalar_apply (p : Params) dt j a b : scalar_joint j = true -> nleb nzero (nmul (maxForce p) dt) = true ->
  idle_ok (nmul (maxForce p) dt) j ->
  let '(j', _, _) := j_apply p j dt a b in scalar_joint j' = true /\ idle_ok (nmul (maxForce p) dt) j' /\ within (nmul (maxForce p) dt) j'.
Proof.
  intros Hs Hm Hi. destruct j as [j|j|j|j|j|j|j|j|j|j]; try discriminate; cbn [j_apply].
  - unfold pin_apply. cbv zeta. destruct (apply_impulses _ _ _ _ _). cbn [scalar_joint idle_ok]. repeat split; apply clamp_abs; auto.
  - unfold gear_apply. cbv zeta. destruct (gear_spin _ _ _ _). cbn [scalar_joint idle_ok]. repeat split; apply clamp_abs; auto.
  - unfold rotary_apply. cbn [idle_ok] in Hi. destruct (neqb (ro_bias j) nzero) eqn:E.
    + cbn [scalar_joint idle_ok]. auto.
    + cbv zeta. assert (W : within (nmul (maxForce p) dt) (JRotary (mkRotary (ro_min j) (ro_max j) (ro_iSum j) (ro_bias j)
         (if nltb (ro_bias j) nzero then nclamp (nadd (ro_jAcc j) (nmul (nneg (nadd (ro_bias j) (nsub (b_w b) (b_w a)))) (ro_iSum j))) nzero (nmul (maxForce p) dt)
          else nclamp (nadd (ro_jAcc j) (nmul (nneg (nadd (ro_bias j) (nsub (b_w b) (b_w a)))) (ro_iSum j))) (nneg (nmul (maxForce p) dt)) nzero)))).
      { unfold within; cbn [j_impulse ro_jAcc]. destruct (nltb _ _); [apply clamp_abs_hi; auto|].
        apply clamp_abs_lo; auto; [|now apply neg_le_zero].
        rewrite nle_iff. destruct (nleb_ok _ _ Hm). repeat split; auto using nneg_ok. lra. }
      destruct (spin _ _ _). cbn [scalar_joint idle_ok]. auto.
  - unfold motor_apply. cbv zeta. destruct (spin _ _ _). cbn [scalar_joint idle_ok]. repeat split; apply clamp_abs; auto.
Qed.
Lemma scalar_iter (p : Params) dt worlds : forall j, worlds <> [] -> scalar_joint j = true -> nleb nzero (nmul (maxForce p) dt) = true ->
  idle_ok (nmul (maxForce p) dt) j -> within (nmul (maxForce p) dt) (joint_iterations p dt j worlds).
Proof.
  induction worlds as [|[a b] w IH]; intros j Hw Hs Hm Hi; [contradiction|]. cbn [joint_iterations].
  pose proof (scalar_apply p dt j a b Hs Hm Hi) as H. destruct (j_apply p j dt a b) as [[j' a'] b']. destruct H as (H1 & H2 & H3).
  destruct w; [exact H3|]. apply IH; auto. discriminate.
Qed.
Context `{Trig T}.
Lemma scalar_prestep (p : Params) dt j a b : scalar_joint j = true -> nleb nzero (nmul (maxForce p) dt) = true ->
  let '(j', _, _) := j_prestep p j dt a b in scalar_joint j' = true /\ idle_ok (nmul (maxForce p) dt) j'.
Proof.
  intros Hs Hm. destruct j as [j|j|j|j|j|j|j|j|j|j]; try discriminate; cbn [j_prestep]; cbn [scalar_joint idle_ok]; auto.
  split; auto. unfold rotary_prestep. cbn [ro_bias]. intros ->. unfold within; cbn [j_impulse ro_jAcc]. now apply abs_zero_le.
Qed.
Lemma scalar_step (p : Params) dt j a b worlds : worlds <> [] -> scalar_joint j = true -> nleb nzero (nmul (maxForce p) dt) = true ->
  within (nmul (maxForce p) dt) (joint_step p dt j a b worlds).
Proof.
  intros Hw Hs Hm. unfold joint_step. pose proof (scalar_prestep p dt j a b Hs Hm) as H1.
  destruct (j_prestep p j dt a b) as [[j' a'] b']. destruct H1. now apply scalar_iter.
Qed.
End Clamped.
