(** Properties C49, C51, C87-C93: polylines. *)
From Coq Require Import Reals ZArith List Arith Bool Lia Lra Permutation.
From Flocq Require Import IEEE754.BinarySingleNaN.
From Verif Require Import Num Spec SpecShapes SpecPolyline.
From Verif.Model Require Import Vector Hull Polyline.
From Verif.Proofs Require Import RTac Geom ShapePf HullPf HullGeo PolylinePf CurvesPf CurvesTop CurvesFloat SimplifyPf.
Import ListNotations.

(** ** C49.  In binary64: whatever segments are collected, in whatever order, the polylines' edges are these segments, each exactly once, up to Go's == on their ends
    (which identifies 0 and -0); no polyline has fewer than two vertices. *)
Theorem C49_edges : forall segs : list (Vec F * Vec F), exists segs', Forall2 (fun s s' => (fst s' = fst s \/ vequal (fst s') (fst s) = true) /\ (snd s' = snd s \/ vequal (snd s') (snd s) = true)) segs segs' /\
  Permutation (all_links (collect_all segs)) segs' /\ Forall (fun l => 2 <= length l)%nat (collect_all segs).
Proof. intros segs. destruct (collect_hist segs [] (Forall_nil _)) as (segs' & A & B & C). exists segs'. split; [exact A|]. split; [|exact C]. cbn in B. now rewrite app_nil_r in B. Qed.
Theorem C49_edges_ideal : forall segs : list (RV * RV), Permutation (all_links (collect_all segs)) segs.
Proof. intros. apply collect_edges. Qed.
(** When no two segments start at the same point, no polyline ends where another one starts: they are as long as they can be. *)
Theorem C49_maximal : forall segs : list (RV * RV), NoDup (map fst segs) -> forall ls1 l ls2 m ls3, collect_all segs = ls1 ++ l :: ls2 ++ m :: ls3 -> forall v p q, ~ (l = p ++ [v] /\ m = v :: q) /\ ~ (m = p ++ [v] /\ l = v :: q).
Proof.
  intros segs ND ls1 l ls2 m ls3 E v p q. pose proof (collect_maximal segs ND) as M. unfold maximal in M. rewrite E in M. clear E. induction ls1 as [|x ls1 IH]; cbn [app] in M; inversion M as [|? ? F M']; subst; [|auto]. rewrite Forall_forall in F. specialize (F m). destruct (F ltac:(apply in_app_iff; cbn; auto) v) as [A B].
  split; intros [-> ->]; [apply A|apply B]; (split; [apply vlast_some; eauto|reflexivity]).
Qed.
(** Segments that close up (every end is a start) with distinct starts and distinct ends give closed polylines only, in whatever order they arrive. *)
Theorem C49_closed : forall segs : list (RV * RV), NoDup (map fst segs) -> NoDup (map snd segs) -> (forall s, In s segs -> In (snd s) (map fst segs)) -> Forall loops (collect_all segs).
Proof. exact collect_loops. Qed.
Definition pp (k : Z) : RV := mkV (IZR k) 0.
Ltac pdec := repeat (match goal with |- context [Reqb ?x ?y] => first [replace (Reqb x y) with true by (symmetry; apply Reqb_true; lra)|replace (Reqb x y) with false by (symmetry; apply Reqb_false; lra)] end; cbn [andb orb negb option_map]).
Ltac one := cbn [fold_left fst snd]; match goal with |- context [collect ?a ?b ?ls] => lazymatch ls with context [collect _ _ _] => fail | _ => let e := fresh in evar (e : list (list RV)); replace (collect a b ls) with e; subst e;
  [|symmetry; unfold collect; cbn [find_ends find_starts vlast hd_error]; unfold vequal; cbn [vx vy neqb numR]; pdec; cbn [option_map Nat.eqb update join delete nth app firstn skipn]; reflexivity] end end.
Ltac fin := cbn [fold_left fst snd]; unfold collect; cbn [find_ends find_starts vlast hd_error]; unfold vequal; cbn [vx vy neqb numR]; pdec; cbn [option_map Nat.eqb update join delete nth app firstn skipn]; reflexivity.
Example C49_nonvacuous : let segs := [(pp 1, pp 2); (pp 3, pp 1); (pp 2, pp 3)] in NoDup (map fst segs) /\ NoDup (map snd segs) /\ (forall s, In s segs -> In (snd s) (map fst segs)) /\ collect_all segs = [[pp 3; pp 1; pp 2; pp 3]].
Proof.
  assert (D : forall a b, a <> b -> pp a <> pp b) by (intros a b N [= E]; apply N; now apply eq_IZR).
  cbv zeta. cbn [map fst snd]. split; [|split; [|split]].
  - repeat constructor; cbn; intuition (try (apply D in H; auto; lia)); eapply D; try eassumption; lia.
  - repeat constructor; cbn; intuition (try (apply D in H; auto; lia)); eapply D; try eassumption; lia.
  - intros s [<-|[<-|[<-|[]]]]; cbn; auto.
  - unfold collect_all, pp. do 2 one. fin.
Qed.
Print Assumptions C49_edges.
Print Assumptions C49_closed.
(** ** C87: when points are passed twice, segments that close up may leave open polylines, although one ends where the other starts. *)
Theorem C87_touching_contours_refuted : exists segs : list (RV * RV), NoDup segs /\ Permutation (map fst segs) (map snd segs) /\ ~ Forall loops (collect_all segs).
Proof.
  assert (D : forall a b, a <> b -> pp a <> pp b) by (intros a b N [= E]; apply N; now apply eq_IZR).
  exists (map (fun e => (pp (fst e), pp (snd e))) [(0, 4); (0, 3); (2, 4); (4, 0); (2, 1); (4, 2); (3, 2); (1, 0)])%Z. split; [|split].
  - apply FinFun.Injective_map_NoDup; [|repeat constructor; cbn; intuition congruence]. intros [a b] [c d] [= A B]. apply eq_IZR in A, B. congruence.
  - rewrite !map_map. cbn [fst snd]. rewrite <- (map_map fst pp), <- (map_map snd pp). apply Permutation_map. cbn. apply (Permutation_count_occ Z.eq_dec). intros x. cbn [count_occ]. repeat match goal with |- context [Z.eq_dec ?a ?b] => destruct (Z.eq_dec a b); subst; try congruence end.
  - intros F. assert (E : collect_all (map (fun e => (pp (fst e), pp (snd e))) [(0, 4); (0, 3); (2, 4); (4, 0); (2, 1); (4, 2); (3, 2); (1, 0)])%Z = [map pp [0; 3; 2; 4; 2]; map pp [2; 1; 0; 4; 0]]%Z).
    { cbn [map fst snd]. unfold collect_all, pp. do 7 one. fin. }
    rewrite E in F. apply Forall_inv in F. destruct F as (v & p & Q). assert (A : hd_error (map pp [0; 3; 2; 4; 2])%Z = Some v) by (rewrite Q; reflexivity). assert (B : hd_error (rev (map pp [0; 3; 2; 4; 2])%Z) = Some v) by (rewrite Q; cbn [rev]; rewrite rev_app_distr; reflexivity).
    cbn in A, B. rewrite <- B in A. injection A. intros; lra.
Qed.

(** ** C51.  SimplifyCurves.  In binary64, for a tolerance that is not negative: it returns whenever no two vertices (at different places) are nearer than half the tolerance. *)
Theorem C51_returns : forall (l : list (Vec F)) tol, Fltb tol (F_of_Z 0) = false -> l <> [] ->
  (forall i j, i <> j -> (i < length l)%nat -> (j < length l)%nat -> ~ (is_closed l = true /\ (i = length l - 1 \/ j = length l - 1)%nat) -> vnear (nth i l vzero) (nth j l vzero) (Fdiv tol (F_of_Z 2)) = false) ->
  exists r, forall sfuel, simplify_curves sfuel tol l = Val r.
Proof.
  intros l tol Ht Hn HS. assert (Htol : nltb tol nzero = false) by exact Ht.
  assert (G : forall sfuel, exists r, simplify_curves sfuel tol l = Val r).
  { intros n. destruct (is_closed l) eqn:C.
    - apply (curves_closed l tol n Htol C). intros i j Hi Hj NE. unfold ring_size in *. rewrite C in *. apply HS; auto; try lia; intros [_ X]; lia.
    - destruct l as [|a [|b l]]; [contradiction| |].
      + unfold simplify_curves. rewrite C. cbn. eauto.
      + apply (curves_open (a :: b :: l) tol n Htol C); [cbn; lia|]. intros i j Hi Hj NE. unfold ring_size in *. rewrite C in *. apply HS; auto. intros [X _]. congruence. }
  destruct (G 0%nat) as [r E]. exists r. intros n. destruct (G n) as [r' E']. rewrite E'. f_equal. eapply curves_det; eauto.
Qed.
(** Over the reals, when it returns: an open polyline loses only vertices, not its ends; *)
Theorem C51_open : forall (l : list RV) tol sfuel r, 0 <= tol -> ~ loops l -> (2 <= length l)%nat -> simplify_curves sfuel tol l = Val r -> subseq r l /\ hd_error r = hd_error l /\ hd_error (rev r) = hd_error (rev l).
Proof.
  intros l tol n r Ht NC L E. destruct (open_subseq l tol n r Ht NC L E) as (A & B & C). split; [exact A|]. split; [exact B|].
  assert (V : forall m : list RV, hd_error (rev m) = vlast m) by (intros m; destruct m as [|x m] using rev_ind; [reflexivity|]; rewrite rev_app_distr; cbn [rev app hd_error]; symmetry; apply vlast_some; eauto). now rewrite !V.
Qed.
(** a closed one stays closed and loses only vertices, going round from some vertex; *)
Theorem C51_closed : forall (l : list RV) tol sfuel r, 0 <= tol -> loops l -> (exists u w, In u l /\ In w l /\ u <> w) -> simplify_curves sfuel tol l = Val r ->
  loops r /\ exists p v q, removelast l = p ++ v :: q /\ subseq r (v :: q ++ p ++ [v]).
Proof. exact closed_subseq. Qed.
(** and no point of the result is farther than the tolerance from the original curve (up to the 1e-15 in Normalize), as documented. *)
Theorem C51_within : forall (l : list RV) tol sfuel r, 0 <= tol -> (2 <= length l)%nat -> simplify_curves sfuel tol l = Val r ->
  forall a b p, In (a, b) (links r) -> on_segment a b p -> exists q, on_path l q /\ (dist p q * dist a b <= tol * (dist a b + 1 / 1000000000000000)).
Proof. exact curves_within. Qed.
(** ** C88: the other direction fails: with tolerance 1 the vertex (10,0) is left out, 9 from the result. *)
Theorem C88_vertices_kept_close_refuted : exists (l : list RV) tol r x, 0 <= tol /\ (forall sfuel, simplify_curves sfuel tol l = Val r) /\ In x l /\ forall q, on_path r q -> 9 <= dist x q.
Proof.
  exists [mkV 0 0; mkV 10 0; mkV 1 0], 1, [mkV 0 0; mkV 1 0], (mkV 10 0). split; [lra|]. split; [|split; [cbn; auto|]].
  - intros n. set (l := [mkV 0 0; mkV 10 0; mkV 1 0]). unfold simplify_curves. replace (is_closed l) with false by (symmetry; unfold is_closed, l; cbn [length Nat.ltb Nat.leb hd_error vlast andb]; unfold vequal; cbn [vx vy neqb numR]; replace (Reqb 0 1) with false by (symmetry; apply Reqb_false; lra); reflexivity).
    change (nth_error l 0) with (Some (mkV 0 0 : RV)). change (length l - 1)%nat with 2%nat. change (nth_error l 2) with (Some (mkV 1 0 : RV)). change (length l) with 3%nat. cbn [lift rbind].
    assert (DP : forall k, douglas_peucker (S k) n l [mkV 0 0] 3 0 2 (1 / ntwo)%num 1 = Val [mkV 0 0]).
    { intros k. cbn [douglas_peucker]. change ((2 + 3 - 0) mod 3 <? 2)%nat with false. change (nth_error l 0) with (Some (mkV 0 0 : RV)). change (nth_error l 2) with (Some (mkV 1 0 : RV)). cbn [lift rbind].
      replace (vnear _ _ _) with false by (symmetry; unfold vnear, vdistsq, vlensq, vsub, vdot, ntwo; unR; cbn [vx vy]; apply Rltb_false; lra). cbn [rbind]. set (nn := vnormalize _).
      assert (Z : forall x, offline nn (vdot nn (mkV 0 0)) (mkV x 0) = 0). { intros x. unfold nn. rewrite offline_turn. replace (turn _ _ _) with 0 by (unfold turn; cbn [vx vy]; ring). rewrite Rabs_R0. unfold Rdiv. ring. }
      assert (FA : farthest 4 l 3 (next 0 3) 2 nn (vdot nn (mkV 0 0)) nzero 0 = Val (nzero, 0%nat)).
      { change (next 0 3) with 1%nat. cbn [farthest]. change (1 =? 2)%nat with false. change (nth_error l 1) with (Some (mkV 10 0 : RV)). cbn [lift rbind]. rewrite Z. change (next 1 3) with 2%nat. change (2 =? 2)%nat with true. cbv iota. replace (nltb nzero 0) with false by (symmetry; unR; apply Rltb_false; lra). reflexivity. }
      rewrite FA. cbn [rbind]. replace (nltb 1 nzero) with false by (symmetry; unR; apply Rltb_false; lra). reflexivity. }
    rewrite DP. reflexivity.
  - intros q (u & w & [[= <- <-]|[]] & t & Ht & ->). destruct (dist_coord (mkV 10 0) (seg_point (mkV 0 0) (mkV 1 0) t) _ (Rle_refl _)) as [DC _]. unfold seg_point in DC at 1. cbn [vx vy] in DC. apply abs_bounds in DC. eapply Rle_trans; [|apply DC]. lra.
Qed.
(** ** C89: an index out of range: IsShort is asked about the polyline being built, with the indexes of the original one. *)
Definition fv (x y : F) : Vec F := mkV x y.
Theorem C89_no_panic_refuted : exists (l : list (Vec F)) tol, (3 <= length l)%nat /\ Fltb (F_of_Z 0) tol = true /\ forall sfuel, simplify_curves (S sfuel) tol l = Panic.
Proof. exists [fv (F_of_Z 0) (F_of_Z 0); fv (F_of_Z 10) (F_of_Z 0); fv (Flit 1 10) (F_of_Z 0)], (F_of_Z 1). split; [cbn; lia|]. split; [vm_compute; reflexivity|]. intros n. vm_compute. reflexivity. Qed.
(** ** C90: and it may never return: the loop in IsShort does not advance, and adding a tiny distance again and again does not reach the bound in binary64. *)
Definition tiny : F := Flit 1 100000000000000000000.
Definition sliver : list (Vec F) := [fv tiny (F_of_Z 0); fv (F_of_Z 0) (F_of_Z 5); fv (F_of_Z 0) (F_of_Z 0); fv tiny (F_of_Z 0)].
Lemma Fleb_R (x y : F) : is_finite x = true -> is_finite y = true -> Fleb x y = true -> B2R x <= B2R y.
Proof. intros A B X. unfold Fleb in X. rewrite Bleb_correct in X by assumption. destruct (Raux.Rle_bool_spec (B2R x) (B2R y)); [assumption|discriminate]. Qed.
Theorem C90_terminates_refuted : forall sfuel, simplify_curves sfuel (F_of_Z 1) sliver = Out.
Proof.
  intros n. unfold simplify_curves. replace (is_closed sliver) with true by (vm_compute; reflexivity). unfold sliver at 1. set (l := sliver). change (length l - 1)%nat with 3%nat. change (length l) with 4%nat.
  replace (loop_indexes _ 1 _ _ 0 0) with (2%nat, 0%nat) by (vm_compute; reflexivity). 
  set (a := fv (F_of_Z 0) (F_of_Z 0)). set (b := fv tiny (F_of_Z 0)). change (nth_error l 2) with (Some a). change (nth_error l 0) with (Some b). cbn [lift rbind].
  assert (DP : forall k, douglas_peucker (S k) n l [a] 3 2 0 (ndiv (F_of_Z 1) ntwo) (F_of_Z 1) = Val [a]) by reflexivity. rewrite DP. clear DP. cbn [rbind app].
  assert (DP : forall k, douglas_peucker (S k) n l [a; b] 3 0 2 (ndiv (F_of_Z 1) ntwo) (F_of_Z 1) = Out); [|rewrite DP; reflexivity].
  intros k. cbn [douglas_peucker]. change ((2 + 3 - 0) mod 3 <? 2)%nat with false. change (nth_error l 2) with (Some a). change (nth_error l 0) with (Some b). cbn [lift rbind]. cbv iota. replace (vnear _ _ _) with true by (vm_compute; reflexivity).
  unfold is_short. rewrite (short_hangs [a; b] 3 0 2 _ a b (Flit 1 4)); try reflexivity; try (vm_compute; reflexivity); try lia.
  - apply (Fleb_R (F_of_Z 0)); vm_compute; reflexivity.
  - apply Fleb_R; vm_compute; reflexivity.
  - split; [apply (Fleb_R (F_of_Z 0))|apply (Fleb_R (F_of_Z 0))]; vm_compute; reflexivity.
Qed.
(** a square and a zigzag: C51_returns and the theorems after it apply to them *)
Definition square : list RV := [mkV 0 0; mkV 4 0; mkV 4 4; mkV 0 4; mkV 0 0].
Example C51_nonvacuous : (exists r, simplify_curves 0 1 square = Val r) /\ loops square /\ (exists r : list (Vec F), forall sfuel, simplify_curves sfuel (F_of_Z 1) [fv (F_of_Z 0) (F_of_Z 0); fv (F_of_Z 10) (F_of_Z 3); fv (F_of_Z 20) (F_of_Z 0)] = Val r).
Proof.
  split; [|split].
  - assert (C : is_closed square = true) by (apply closed_iff; exists (mkV 0 0), [mkV 4 0; mkV 4 4; mkV 0 4]; reflexivity). apply (curves_closed square 1 0); [unR; apply Rltb_false; lra|exact C|]. intros i j Hi Hj NE. unfold ring_size in *. rewrite C in *. cbn in Hi, Hj.
    unfold vnear, vdistsq, vlensq, vsub, vdot, ntwo, square. unR. apply Rltb_false. destruct i as [|[|[|[|i]]]]; try lia; destruct j as [|[|[|[|j]]]]; try lia; try (exfalso; apply NE; reflexivity); cbn [nth vx vy]; lra.
  - exists (mkV 0 0), [mkV 4 0; mkV 4 4; mkV 0 4]. reflexivity.
  - apply C51_returns; [vm_compute; reflexivity|discriminate|]. intros i j NE Hi Hj _. cbn [length] in Hi, Hj. destruct i as [|[|[|i]]]; try (exfalso; lia); destruct j as [|[|[|j]]]; try (exfalso; lia); try (exfalso; apply NE; reflexivity); cbn [nth]; vm_compute; reflexivity.
Qed.
Print Assumptions C51_returns.
Print Assumptions C51_within.

(** ** C91.  SimplifyVertexes: it returns for every polyline with at least two vertices; the result is the polyline with some vertices left out, but not its ends;
    only when the polyline is closed the first vertex may be replaced by the last but one of the result. *)
Theorem C91_vertices_left_out : forall (l : list RV) tol, (2 <= length l)%nat -> exists m, subseq m l /\ hd_error m = hd_error l /\ hd_error (rev m) = hd_error (rev l) /\
  (simplify_vertexes tol l = Val m \/ loops l /\ exists a b p x t, m = a :: b :: t /\ m = x ++ [p; a] /\ simplify_vertexes tol l = Val (p :: b :: t)).
Proof.
  intros l tol L. destruct (simplify_shape tol l L) as (m & S & A & B & _ & C). exists m. split; [exact S|]. split; [exact A|]. split.
  - assert (V : forall m : list RV, hd_error (rev m) = vlast m) by (intros n; destruct n as [|x n] using rev_ind; [reflexivity|]; rewrite rev_app_distr; cbn [rev app hd_error]; symmetry; apply vlast_some; eauto). now rewrite !V.
  - destruct C as [C|[C D]]; [now left|right]. split; [now apply closed_iff|exact D].
Qed.
(** If every vertex turns by more than the tolerance (at most a right angle) nothing is left out. *)
Definition turns (tol : R) (a b c : RV) : Prop := inner (vminus b a) (vminus c b) < cos tol * (dist a b * dist b c).
Theorem C91_sharp_kept : forall (l : list RV) tol, 0 <= tol <= PI / 2 -> (2 <= length l)%nat -> (forall a b c x y, l = x ++ a :: b :: c :: y -> turns tol a b c) -> (forall p a b x y, l = x ++ [p; a] -> l = a :: b :: y -> turns tol p a b) ->
  simplify_vertexes tol l = Val l.
Proof. intros l tol Ht. apply simplify_id. apply cos_ge_0; pose proof PI_RGT_0; lra. Qed.
Example C91_nonvacuous : let l := [mkV 0 0; mkV 4 0; mkV 2 3; mkV 0 0] in (forall a b c x y, l = x ++ a :: b :: c :: y -> turns (PI / 2) a b c) /\ (forall p a b x y, l = x ++ [p; a] -> l = a :: b :: y -> turns (PI / 2) p a b).
Proof.
  cbv zeta. unfold turns. rewrite cos_PI2. split.
  - intros a b c x y E. destruct x as [|x0 [|x1 [|x2 [|x3 x]]]]; cbn in E; inversion E; subst; unfold inner, vminus; cbn [vx vy]; try lra; try (destruct x; discriminate).
  - intros p a b x y E1 E2. inversion E2; subst. change [mkV 0 0; mkV 4 0; mkV 2 3; mkV 0 0] with ([mkV 0 0; mkV 4 0] ++ [mkV 2 3; mkV 0 0] : list RV) in E1. assert (E3 := f_equal (@rev RV) E1). rewrite !rev_app_distr in E3. cbn in E3. inversion E3; subst. unfold inner, vminus; cbn [vx vy]; lra.
Qed.
Print Assumptions C91_vertices_left_out.
Ltac kept := match goal with |- context [nleb (sharpness ?a ?b ?c) ?m] => replace (nleb (sharpness a b c) m) with false by (symmetry; unR; apply Rleb_false; rewrite <- cos_PI2; apply keeps; rewrite cos_PI2; [|unfold inner, vminus; cbn [vx vy]]; lra) end.
Lemma drops (a b c : RV) : 0 < inner (vminus b a) (vminus c b) -> sharpness a b c < 0.
Proof. intros I. rewrite sharp_eq. pose proof (dist_ge0 a b). pose proof (dist_ge0 b c). set (D := (dist a b + _) * _). assert (0 < D) by (apply Rmult_lt_0_compat; lra). unfold Rdiv. rewrite <- Ropp_mult_distr_l. apply Ropp_lt_gt_0_contravar. apply Rmult_lt_0_compat; auto. now apply Rinv_0_lt_compat. Qed.
(** ** C92: a closed polyline need not stay closed: the first vertex is replaced but the last one stays. *)
Theorem C92_stays_closed_refuted : exists (l : list RV) tol r, 0 < tol <= PI / 2 /\ loops l /\ simplify_vertexes tol l = Val r /\ ~ loops r.
Proof.
  exists [mkV 1 0; mkV 2 0; mkV 1 2; mkV 0 0; mkV 1 0], (PI / 2), [mkV 0 0; mkV 2 0; mkV 1 2; mkV 0 0; mkV 1 0]. pose proof PI_RGT_0. split; [lra|]. split; [exists (mkV 1 0), [mkV 2 0; mkV 1 2; mkV 0 0]; reflexivity|]. split.
  - unfold simplify_vertexes. replace (nneg (ncos (PI / 2))) with (- 0) by (unR; now rewrite cos_PI2). cbn [simplify_loop]. do 3 (kept; cbn [simplify_loop]). cbn [rbind rev app].
    replace (is_closed _) with true by (symmetry; apply closed_iff; exists (mkV 1 0), [mkV 2 0; mkV 1 2; mkV 0 0]; reflexivity). cbn [andb].
    replace (nltb _ _) with true; [reflexivity|]. symmetry. unR. apply Rltb_true. rewrite Ropp_0. apply drops. unfold inner, vminus; cbn [vx vy]; lra.
  - intros (v & p & E). assert (E3 := f_equal (fun l => hd_error (rev l)) E). assert (E4 := f_equal (@hd_error RV) E). cbn [rev] in E3. rewrite rev_app_distr in E3. cbn in E3, E4. rewrite <- E3 in E4. injection E4. intros; lra.
Qed.
(** ** C93: a vertex of the result may turn by less than the tolerance: the vertices already kept are not looked at again. *)
Theorem C93_sharp_result_refuted : exists (l : list RV) tol r a b c, 0 < tol <= PI / 2 /\ simplify_vertexes tol l = Val r /\ r = [a; b; c] /\ cos tol * (dist a b * dist b c) < inner (vminus b a) (vminus c b).
Proof.
  exists [mkV (-1) 0; mkV 0 0; mkV (-1) 1; mkV 1 4], (PI / 2). do 4 eexists. pose proof PI_RGT_0. split; [lra|]. split; [|split; [reflexivity|]].
  - unfold simplify_vertexes. replace (nneg (ncos (PI / 2))) with (- 0) by (unR; now rewrite cos_PI2). cbn [simplify_loop]. kept. cbn [simplify_loop].
    replace (nleb _ _) with true by (symmetry; unR; apply Rleb_true; rewrite Ropp_0; left; apply drops; unfold inner, vminus; cbn [vx vy]; lra). cbn [rbind rev app].
    replace (is_closed _) with false; [reflexivity|]. symmetry. unfold is_closed. cbn [length hd_error vlast Nat.ltb Nat.leb andb]. unfold vequal. unR. cbn [vx vy]. apply andb_false_intro1. apply Reqb_false. lra.
  - rewrite cos_PI2. unfold inner, vminus; cbn [vx vy]; lra.
Qed.
Print Assumptions C92_stays_closed_refuted.
