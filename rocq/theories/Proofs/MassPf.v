(** Area, centroid and moment of polygons (C48). *)
From Coq Require Import Reals ZArith Bool List Lra Lia Psatz Permutation.
From Verif Require Import Num Spec SpecShapes.
From Verif.Model Require Import Vector BB Transform Shapes.
From Verif.Proofs Require Import RTac Geom ShapePf ShapePf2 PolyPf PolyPf2.
Import ListNotations.

Definition rsum (l : list R) : R := fold_right Rplus 0 l.
Lemma sum_rsum (l : list R) : sum l = rsum l.
Proof.
  unfold sum. unR. assert (G : forall l m, fold_left Rplus l m = m + rsum l) by (clear; induction l as [|x l IH]; intros m; cbn [fold_left rsum fold_right]; [ring|rewrite IH; unfold rsum; ring]). rewrite G. ring.
Qed.
Lemma rsum_app l m : rsum (l ++ m) = rsum l + rsum m.
Proof. unfold rsum in *. induction l as [|x l IH]; cbn [app fold_right]; lra. Qed.
Lemma rsum_perm l m : Permutation l m -> rsum l = rsum m.
Proof. unfold rsum. induction 1; cbn [fold_right]; lra. Qed.
(** sums over edges *)
Definition esum (f : RV -> RV -> R) (L : list (RV * RV)) : R := rsum (map (fun e => f (fst e) (snd e)) L).
Lemma esum_ext f g L : (forall a b, In (a, b) L -> f a b = g a b) -> esum f L = esum g L.
Proof. intros E. unfold esum. f_equal. apply map_ext_in. intros [a b] I. cbn. auto. Qed.
Lemma esum_add f g L : esum (fun a b => f a b + g a b) L = esum f L + esum g L.
Proof. unfold esum. induction L as [|e L IH]; cbn [map rsum fold_right]; [ring|]. unfold rsum in *. lra. Qed.
Lemma esum_scale k f L : esum (fun a b => k * f a b) L = k * esum f L.
Proof. unfold esum. induction L as [|e L IH]; cbn [map rsum fold_right]; [ring|]. unfold rsum in *. lra. Qed.
Lemma esum_perm f L M : Permutation L M -> esum f L = esum f M.
Proof. intros P. apply rsum_perm. now apply Permutation_map. Qed.
Lemma esum_map h f L : esum f (map (fun e => (h (fst e), h (snd e))) L) = esum (fun a b => f (h a) (h b)) L.
Proof. unfold esum. now rewrite map_map. Qed.
(** the edges as a permutation of the specification's ring *)
Lemma combine_len {A} (l m n : list A) : length l = length m -> combine l (m ++ n) = combine l m.
Proof. revert m. induction l as [|a l IH]; intros [|b m] E; cbn in *; try discriminate; [reflexivity|]. f_equal. apply IH. lia. Qed.
Lemma combine_snoc {A} (l m : list A) x y : length l = length m -> combine (l ++ [x]) (m ++ [y]) = combine l m ++ [(x, y)].
Proof. revert m. induction l as [|a l IH]; intros [|b m] E; cbn in *; try discriminate; [reflexivity|]. f_equal. apply IH. lia. Qed.
Lemma chain_cons {A} (l : list A) : forall x y, combine (x :: l) (l ++ [y]) = combine (x :: l) l ++ [(last (x :: l) x, y)].
Proof.
  induction l as [|a l IH]; intros x y; [reflexivity|]. cbn [app combine]. cbn [combine] in IH. rewrite IH. cbn [app]. do 3 f_equal. change (last (a :: l) a) with (last (a :: l) a). rewrite (last_cons x (a :: l)) by discriminate. f_equal. apply last_dflt. discriminate.
Qed.
Lemma edges_ring (vs : list RV) : Permutation (edges vs) (ring vs).
Proof.
  destruct vs as [|v vs]; [constructor|]. unfold edges, ring. rewrite chain_cons. cbn [combine]. apply Permutation_sym, Permutation_cons_append.
Qed.
Lemma edges_rot1 {A} (v : Vec A) vs : Permutation (edges (vs ++ [v])) (edges (v :: vs)).
Proof.
  destruct vs as [|w vs]; [reflexivity|]. unfold edges. cbn [app]. change (w :: vs ++ [v]) with ((w :: vs) ++ [v]) at 1. rewrite (combine_snoc (w :: vs) (vs ++ [v]) v w) by (rewrite app_length; cbn; lia). cbn [combine]. apply Permutation_sym, Permutation_cons_append.
Qed.
Lemma edges_rot {A} (l m : list (Vec A)) : Permutation (edges (m ++ l)) (edges (l ++ m)).
Proof.
  revert m. induction l as [|v l IH]; intros m; [now rewrite app_nil_r|]. change (m ++ v :: l) with (m ++ [v] ++ l). rewrite app_assoc, IH, app_assoc. apply edges_rot1.
Qed.
Lemma map_combine2 {A B} (f : A -> B) l m : combine (map f l) (map f m) = map (fun e => (f (fst e), f (snd e))) (combine l m).
Proof. revert m. induction l as [|a l IH]; intros [|b m]; cbn; [reflexivity..|now rewrite IH]. Qed.
Lemma edges_map {A} (f : Vec A -> Vec A) vs : edges (map f vs) = map (fun e => (f (fst e), f (snd e))) (edges vs).
Proof. destruct vs as [|v vs]; [reflexivity|]. unfold edges. cbn [map]. rewrite <- map_combine2, map_app. reflexivity. Qed.
Lemma edges_snd (vs : list RV) : Permutation (map snd (edges vs)) (map fst (edges vs)).
Proof.
  destruct vs as [|v vs]; [constructor|]. unfold edges. assert (G : forall (l m : list RV), length l = length m -> map fst (combine l m) = l /\ map snd (combine l m) = m) by (induction l as [|a l IH]; intros [|b m] E; cbn in *; try discriminate; auto; injection E as E; destruct (IH m E) as [-> ->]; auto).
  destruct (G (v :: vs) (vs ++ [v])) as [-> ->]; [rewrite app_length; cbn; lia|]. apply Permutation_sym, Permutation_cons_append.
Qed.
Lemma telescope g vs : esum (fun a b => g b - g a) (edges vs) = 0.
Proof.
  assert (E : forall L, esum (fun a b => g b - g a) L = rsum (map g (map snd L)) - rsum (map g (map fst L))) by (unfold esum; induction L as [|e L IH]; cbn [map rsum fold_right]; [ring|unfold rsum in *; lra]).
  rewrite E. rewrite (rsum_perm (map g (map snd (edges vs))) (map g (map fst (edges vs)))); [ring|]. apply Permutation_map, edges_snd.
Qed.
(** [f] and [g] differ by a telescoping term *)
Lemma esum_tele f g h vs : (forall a b, f a b = g a b + (h b - h a)) -> esum f (edges vs) = esum g (edges vs).
Proof. intros E. rewrite (esum_ext f (fun a b => g a b + (h b - h a))) by auto. rewrite esum_add, telescope. ring. Qed.
Definition crs (a b : RV) : R := vx a * vy b - vy a * vx b.
Lemma vcross_crs (a b : RV) : vcross a b = crs a b. Proof. unfold vcross, crs. unR. reflexivity. Qed.

(** ** area *)
Lemma area_eq vs r : area_for_poly vs r = r * (PI * Rabs r + esum dist (edges vs)) + esum crs (edges vs) / 2.
Proof.
  unfold area_for_poly. unR. rewrite !sum_rsum. try replace (2 / 1) with 2 by field. unfold esum. do 4 f_equal.
Qed.
Lemma area_origin o vs r : area_for_poly vs r = r * (PI * Rabs r + esum dist (edges vs)) + esum (turn o) (edges vs) / 2.
Proof. rewrite area_eq. f_equal. f_equal. apply (esum_tele crs (turn o) (fun v => crs o v)). intros a b. unfold crs, turn. ring. Qed.
Lemma area_rot l m r : area_for_poly (m ++ l) r = area_for_poly (l ++ m) r.
Proof. rewrite !area_eq. rewrite !(esum_perm _ _ _ (edges_rot l m)). reflexivity. Qed.
Lemma area_translate d vs r : area_for_poly (map (vplus d) vs) r = area_for_poly vs r.
Proof.
  rewrite (area_origin (vplus d (mkV 0 0)) (map (vplus d) vs)), (area_origin (mkV 0 0) vs), edges_map. rewrite !esum_map.
  rewrite (esum_ext (fun a b => dist (vplus d a) (vplus d b)) dist) by (intros a b _; unfold dist, dist2, vplus; cbn [vx vy]; f_equal; ring).
  rewrite (esum_ext (fun a b => turn (vplus d (mkV 0 0)) (vplus d a) (vplus d b)) (turn (mkV 0 0))) by (intros a b _; unfold turn, vplus; cbn [vx vy]; ring). reflexivity.
Qed.
Lemma esum_nonneg f L : (forall a b, In (a, b) L -> 0 <= f a b) -> 0 <= esum f L.
Proof. unfold esum. induction L as [|[a b] L IH]; cbn [map rsum fold_right]; intros N; [lra|]. assert (0 <= f a b) by (apply N; left; auto). assert (0 <= rsum (map (fun e => f (fst e) (snd e)) L)) by (apply IH; intros; apply N; right; auto). unfold rsum in *. cbn. lra. Qed.
Lemma esum_pos f L : (forall a b, In (a, b) L -> 0 <= f a b) -> (exists a b, In (a, b) L /\ 0 < f a b) -> 0 < esum f L.
Proof.
  unfold esum. induction L as [|[a b] L IH]; cbn [map rsum fold_right]; intros N (x & y & I & P); [destruct I|]. assert (0 <= f a b) by (apply N; left; auto).
  assert (NL : forall a b, In (a, b) L -> 0 <= f a b) by (intros; apply N; right; auto). assert (G := esum_nonneg f L NL). unfold esum, rsum in *. cbn [fst snd]. destruct I as [[= <- <-]|I]; [lra|]. assert (0 < fold_right Rplus 0 (map (fun e => f (fst e) (snd e)) L)) by (apply IH; eauto). lra.
Qed.
Lemma area_ccw vs : convex_ccw vs -> forall r, 0 <= r -> 0 < area_for_poly vs r.
Proof.
  intros CV r R0. destruct vs as [|v vs'] eqn:EV; [destruct CV as (L & _); cbn in L; lia|]. rewrite <- EV in *.
  assert (IE : In (last vs v, v) (ring vs)) by (rewrite EV; unfold ring; left; reflexivity). destruct (cv_left vs CV _ _ IE) as (d & Id & Td).
  rewrite (area_origin d). assert (P0 : 0 <= esum dist (edges vs)) by (apply esum_nonneg; intros; apply dist_nonneg). assert (TR : forall a b, turn d a b = turn a b d) by (intros; unfold turn; ring).
  assert (0 < esum (turn d) (edges vs)). { rewrite (esum_perm _ _ _ (edges_ring vs)). apply esum_pos; [|exists (last vs v), v; rewrite TR; auto]. intros a b I. rewrite TR. apply (vertex_region vs CV d); auto. }
  assert (0 <= r * (PI * Rabs r + esum dist (edges vs))) by (apply Rmult_le_pos; auto; apply Rplus_le_le_0_compat; auto; apply Rmult_le_pos; [left; apply PI_RGT_0|apply Rabs_pos]). lra.
Qed.
(** the reversed polygon *)
Lemma edges_rev (vs : list RV) : Permutation (edges (rev vs)) (map (fun e => (snd e, fst e)) (edges vs)).
Proof.
  assert (G : forall (l m : list RV), length l = length m -> rev (combine l m) = combine (rev l) (rev m)).
  { induction l as [|a l IH]; intros [|b m] E; cbn in *; try discriminate; [reflexivity|]. injection E as E. rewrite IH by auto. rewrite combine_snoc by (rewrite !rev_length; auto). reflexivity. }
  assert (SW : forall (l m : list RV), map (fun e => (snd e, fst e)) (combine l m) = combine m l) by (induction l as [|a l IH]; intros [|b m]; cbn; [reflexivity..|now rewrite IH]).
  destruct vs as [|v vs]; [constructor|]. cbn [rev]. rewrite edges_rot1. unfold edges. rewrite SW.
  transitivity (rev (combine (vs ++ [v]) (v :: vs))); [|apply Permutation_sym, Permutation_rev]. rewrite G by (rewrite app_length; cbn; lia). rewrite rev_app_distr. reflexivity.
Qed.
Lemma area_rev vs : area_for_poly (rev vs) 0 = - area_for_poly vs 0.
Proof.
  rewrite !area_eq. rewrite (esum_perm crs _ _ (edges_rev vs)). unfold esum at 2. rewrite map_map. cbn [fst snd].
  replace (rsum (map (fun x => crs (snd x) (fst x)) (edges vs))) with (-1 * esum crs (edges vs)); [unfold esum; lra|]. rewrite <- esum_scale. unfold esum. f_equal. apply map_ext. intros [a b]. unfold crs. cbn. ring.
Qed.

(** ** centroid *)
Definition cx (a b : RV) := (vx a + vx b) * crs a b.
Definition cy (a b : RV) := (vy a + vy b) * crs a b.
Lemma centroid_eq vs : centroid_for_poly vs = mkV (esum cx (edges vs) * (1 / (3 * esum crs (edges vs)))) (esum cy (edges vs) * (1 / (3 * esum crs (edges vs)))).
Proof.
  unfold centroid_for_poly. rewrite sum_rsum. change (rsum (map (fun e : Vec R * Vec R => vcross (fst e) (snd e)) (edges vs))) with (esum vcross (edges vs)). rewrite (esum_ext vcross crs) by (intros; apply vcross_crs).
  assert (G : forall L w, fold_left vadd (map (fun e : Vec R * Vec R => vmult (vadd (fst e) (snd e)) (vcross (fst e) (snd e))) L) w = mkV (vx w + esum cx L) (vy w + esum cy L)).
  { induction L as [|[a b] L IH]; intros w; cbn [map fold_left]; [apply vec_eq; unfold esum; cbn; ring|]. rewrite IH. unfold esum. cbn [map rsum fold_right fst snd]. unfold rsum. apply vec_eq; unfold vadd, vmult, cx, cy; rewrite !vcross_crs; unR; cbn [vx vy]; ring. }
  rewrite G. apply vec_eq; unfold vmult, vzero; unR; cbn [vx vy]; unfold Rdiv; ring.
Qed.
Lemma centroid_translate d vs : esum crs (edges vs) <> 0 -> centroid_for_poly (map (vplus d) vs) = vplus d (centroid_for_poly vs).
Proof.
  intros N. rewrite !centroid_eq, !edges_map, !esum_map.
  rewrite (esum_tele (fun a b => crs (vplus d a) (vplus d b)) crs (fun v => crs d v)) by (intros a b; unfold crs, vplus; cbn [vx vy]; ring).
  rewrite (esum_tele (fun a b => cx (vplus d a) (vplus d b)) (fun a b => cx a b + 3 * vx d * crs a b) (fun v => 2 * vx d * crs d v + vx d * (vx v * vy v) - vy d * (vx v * vx v))) by (intros a b; unfold cx, crs, vplus; cbn [vx vy]; ring).
  rewrite (esum_tele (fun a b => cy (vplus d a) (vplus d b)) (fun a b => cy a b + 3 * vy d * crs a b) (fun v => 2 * vy d * crs d v + vx d * (vy v * vy v) - vy d * (vx v * vy v))) by (intros a b; unfold cy, crs, vplus; cbn [vx vy]; ring).
  rewrite !esum_add, !esum_scale. apply vec_eq; unfold vplus; cbn [vx vy]; field; auto.
Qed.
Lemma centroid_rot (l m : list RV) : centroid_for_poly (m ++ l) = centroid_for_poly (l ++ m).
Proof. rewrite !centroid_eq. rewrite !(esum_perm _ _ _ (edges_rot l m)). reflexivity. Qed.

(** ** moment *)
Definition mq (o a b : RV) : R := let u := vplus a o in let w := vplus b o in crs u w * (inner u u + inner u w + inner w w).
Lemma moment_eq (m : R) vs o r : length vs <> 2%nat -> esum crs (edges vs) <> 0 -> moment_for_poly m vs o r = m * esum (mq o) (edges vs) / (6 * esum crs (edges vs)).
Proof.
  intros L N. assert (ME : moment_for_poly m vs o r = m * esum (fun a b => - mq o a b) (edges vs) / (6 * esum (fun a b => - crs (vplus a o) (vplus b o)) (edges vs))).
  { unfold moment_for_poly. assert (G : forall (ws : list RV) (A : RV -> RV -> R) (B : R), length ws <> 2%nat -> match ws with [v0; v1] => A v0 v1 | _ => B end = B) by (intros [|x [|y [|z ws]]] A B E; auto; cbn in E; lia). rewrite G by auto. rewrite !sum_rsum.
    unfold esum. unR. apply (f_equal2 Rdiv); apply (f_equal2 Rmult); try (apply (f_equal rsum), map_ext; intros [x y]; cbn [fst snd]; unfold mq, crs, inner, vcross, vdot, vadd, vplus; unR; cbn [vx vy]; ring); unfold Rdiv; lra. }
  rewrite ME. rewrite (esum_tele (fun a b => - crs (vplus a o) (vplus b o)) (fun a b => -1 * crs a b) (fun v => - crs o v)) by (intros; unfold crs, vplus; cbn [vx vy]; ring).
  rewrite (esum_ext (fun a b => - mq o a b) (fun a b => -1 * mq o a b)) by (intros; ring). rewrite !esum_scale. field. auto.
Qed.
Lemma moment_offset (m : R) vs o r : length vs <> 2%nat -> moment_for_poly m (map (vplus o) vs) (mkV 0 0) r = moment_for_poly m vs o r.
Proof.
  intros L. unfold moment_for_poly. assert (G : forall (ws : list RV) (A : RV -> RV -> R) (B : R), length ws <> 2%nat -> match ws with [v0; v1] => A v0 v1 | _ => B end = B) by (intros [|x [|y [|z ws]]] A B E; auto; cbn in E; lia).
  rewrite !G by (rewrite ?map_length; auto). rewrite !edges_map, !map_map, !sum_rsum. unR. apply (f_equal2 Rdiv); apply (f_equal2 Rmult); try reflexivity; apply (f_equal rsum), map_ext; intros [x y]; cbn [fst snd]; unfold vcross, vdot, vadd, vplus; unR; cbn [vx vy]; ring.
Qed.
Lemma moment_rot (m : R) l k o r : length (l ++ k) <> 2%nat -> moment_for_poly m (k ++ l) o r = moment_for_poly m (l ++ k) o r.
Proof.
  intros L. unfold moment_for_poly. assert (G : forall (ws : list RV) (A : RV -> RV -> R) (B : R), length ws <> 2%nat -> match ws with [v0; v1] => A v0 v1 | _ => B end = B) by (intros [|x [|y [|z ws]]] A B E; auto; cbn in E; lia).
  rewrite !G by (rewrite ?app_length in *; lia). rewrite !sum_rsum. f_equal; [f_equal|do 1 f_equal]; apply rsum_perm, Permutation_map, edges_rot.
Qed.
Lemma mq_shift o vs : esum (mq o) (edges vs) = esum (mq (mkV 0 0)) (edges vs) + 4 * (vx o * esum cx (edges vs) + vy o * esum cy (edges vs)) + 6 * inner o o * esum crs (edges vs).
Proof.
  rewrite (esum_tele (mq o) (fun a b => mq (mkV 0 0) a b + (4 * vx o * cx a b + (4 * vy o * cy a b + 6 * inner o o * crs a b))) (fun v => crs o v * (inner v v + 3 * inner o v + 3 * inner o o))).
  - rewrite !esum_add, !esum_scale. ring.
  - intros a b. unfold mq, cx, cy, crs, inner, vplus. cbn [vx vy]. ring.
Qed.
Lemma moment_parallel_axis (m : R) vs o r : length vs <> 2%nat -> esum crs (edges vs) <> 0 -> let c := centroid_for_poly vs in
  moment_for_poly m vs o r = moment_for_poly m vs (vscale (-1) c) r + m * norm2 (vplus o c).
Proof.
  intros L N c. rewrite !moment_eq by auto. rewrite (mq_shift o), (mq_shift (vscale (-1) c)). unfold c. rewrite centroid_eq. set (X := esum cx (edges vs)). set (Y := esum cy (edges vs)). set (S := esum crs (edges vs)) in *. unfold norm2, inner, vscale, vplus. cbn [vx vy]. field. auto.
Qed.
