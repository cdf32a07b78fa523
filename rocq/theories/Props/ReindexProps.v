(** C139: after ReindexShape the queries see the shape where it is. *)
From Coq Require Import Reals ZArith NArith Bool List Arith Lra Lia.
From Flocq Require Import IEEE754.BinarySingleNaN.
From Verif Require Import Num Spec SpecShapes SpecIndex SpecQuery.
From Verif.Model Require Import Vector BB BBTree Transform Shapes Handlers Collision Query Reindex.
From Verif.Proofs Require Import RTac Util BBOrder BBTreeHist BBTreeInv BBTreeTop QueryPf.
From Verif.Props Require Import Index QueryProps UseHashProps.
Import ListNotations.
Local Open Scope nat_scope.

Section P.
Context {T : Type} {NT : Num T} {OT : OrdNum T}.
(** fattening the box of a shape with the velocity of its body loses nothing of it (C10_fat_box says when) *)
Definition fits (vel : nat -> Vec T) (W : nat -> QShape T) : Prop := env_ok (mkEnv (fun id => box_of (W id)) vel).
(** the shapes after the calls: those reindexed are where they are now, the others as the space last saw them *)
Definition now (fresh W : nat -> QShape T) (ids : list nat) (id : nat) : QShape T := if existsb (Nat.eqb id) ids then fresh id else W id.
Lemma reindex_absent e0 d h e id : valid e0 h -> ~ In id (members d h) -> ix_reindex_object d e (run e0 h) id = run e0 h.
Proof.
  intros V N. unfold ix_reindex_object. destruct (find_leaf _ _) as [l|] eqn:E; [|reflexivity]. exfalso. apply N. apply (ag_ids _ _ (run_agrees e0 h V)). eapply find_ids; eauto.
Qed.
Lemma reindex_one (e0 : env T) fresh W h id : valid e0 h -> In id (all_members h) -> let s := mkRS W (env_now e0 h) (run e0 h) in fits (vel (env_now e0 h)) fresh ->
  exists d, In id (members d h) /\ let h' := OReindexObject d id :: OMove (rs_env (cache_bb fresh s id)) :: h in valid e0 h' /\ reindex_shape fresh s id = mkRS (rs_shapes (cache_bb fresh s id)) (env_now e0 h') (run e0 h').
Proof.
  intros V I s Fi. assert (exists d, In id (members d h)) as (d & M) by (unfold all_members in I; apply in_app_iff in I as [I|I]; eauto).
  exists d. split; [exact M|]. cbv zeta.
  assert (EO : env_ok (rs_env (cache_bb fresh s id))).
  { assert (E1 : env_ok (env_now e0 h)) by (clear - V; induction h as [|o h IH]; [exact V|]; destruct V as [A V]; destruct o; cbn [env_now]; auto).
    intros d' i. unfold cache_bb, s. cbn [rs_env]. unfold get_bb. cbn [cur vel]. destruct (Nat.eqb_spec i id) as [->|]; [exact (Fi d' id)|exact (E1 d' i)]. }
  assert (V1 : valid e0 (OMove (rs_env (cache_bb fresh s id)) :: h)) by (split; assumption).
  split; [split; [exact M|exact V1]|].
  unfold reindex_shape. cbv zeta. f_equal. set (e := rs_env (cache_bb fresh s id)) in *. change (rs_index (cache_bb fresh s id)) with (run e0 (OMove e :: h)).
  destruct d.
  - change (ix_reindex_object true e (run e0 (OMove e :: h)) id) with (run e0 (OReindexObject true id :: OMove e :: h)). apply reindex_absent; [split; [exact M|exact V1]|]. cbn. intros N. eapply members_disjoint; eauto.
  - rewrite (reindex_absent e0 true (OMove e :: h)); [reflexivity|exact V1|]. cbn. intros N. eapply members_disjoint; eauto.
Qed.
(** the calls are a history of the indexes with the same shapes, up to date for all shapes that were or have been reindexed *)
Theorem C139_reindexed : forall (e0 : env T) fresh W h ids, valid e0 h -> (forall id, In id ids -> In id (all_members h)) -> fits (vel (env_now e0 h)) fresh ->
  (forall d id, In id (members d h) -> ~ In id ids -> indexed e0 d id h = Some (box_of (W id))) ->
  let s := fold_left (reindex_shape fresh) ids (mkRS W (env_now e0 h) (run e0 h)) in
  exists h', valid e0 h' /\ rs_index s = run e0 h' /\ (forall d, members d h' = members d h) /\ up_to_date e0 h' (rs_shapes s) /\ forall id, rs_shapes s id = now fresh W ids id.
Proof.
  intros e0 fresh W h ids. revert W h. cbv zeta.
  induction ids as [|x ids IH]; intros W h V M Fi U; cbn [fold_left].
  - exists h. cbn [rs_index rs_shapes]. repeat split; auto; intros d id I; apply U; auto.
  - destruct (reindex_one e0 fresh W h x V (M x (or_introl eq_refl)) Fi) as (d & Md & V' & E). rewrite E. cbn [rs_shapes cache_bb]. set (W' := fun i => if i =? x then fresh x else W i).
    set (e := rs_env _) in *. destruct (IH W' (OReindexObject d x :: OMove e :: h)) as (h' & Vh & Ih & Mh & Uh & Sh); auto.
    + intros id I. apply (M id). now right.
    + intros d' id I N. cbn [members] in I. cbn [indexed env_now]. unfold W'. destruct (Nat.eqb_spec id x) as [->|Nx].
      * assert (d' = d) as -> by (destruct d, d'; auto; exfalso; eapply members_disjoint; eauto). rewrite Bool.eqb_reflx. cbn [andb]. unfold e, cache_bb. cbn [rs_env cur]. now rewrite Nat.eqb_refl.
      * rewrite andb_false_r. apply U; [exact I|]. intros [->|J]; auto.
    + exists h'. repeat split; auto. intros id. rewrite Sh. unfold now, W'. cbn [existsb]. destruct (existsb (Nat.eqb id) ids) eqn:Ex; [now rewrite orb_true_r|]. rewrite orb_false_r. destruct (Nat.eqb_spec id x) as [->|]; reflexivity.
Qed.
End P.
(** so the box query, in binary64, ... *)
Theorem C139_box_query : forall (e0 : env F) fresh W h ids q f, valid e0 h -> (forall id, In id ids -> In id (all_members h)) -> fits (vel (env_now e0 h)) fresh ->
  (forall d id, In id (members d h) -> ~ In id ids -> indexed e0 d id h = Some (box_of (W id))) ->
  let s := fold_left (reindex_shape fresh) ids (mkRS W (env_now e0 h) (run e0 h)) in let called := bb_query (rs_shapes s) (rs_index s) q f in
  NoDup called /\ forall id, In id called <-> In id (all_members h) /\ accepts f (now fresh W ids id) /\ bb_intersects (box_of (now fresh W ids id)) q = true.
Proof.
  intros e0 fresh W h ids q f V M Fi U s called. destruct (C139_reindexed e0 fresh W h ids V M Fi U) as (h' & V' & I & Mh & U' & S). fold s in I, U', S.
  unfold called. rewrite I. destruct (C96_box_query_exact (rs_shapes s) e0 h' q f V' U') as [N E]. split; [exact N|]. intros id. rewrite E, S. unfold all_members. now rewrite !Mh.
Qed.
(** ... and over the reals the nearest point query answer for the shapes where they are now *)
Theorem C139_nearest : forall (e0 : env R) fresh W h ids p maxd f, valid e0 h -> (forall id, In id ids -> In id (all_members h)) -> fits (vel (env_now e0 h)) fresh ->
  (forall d id, In id (members d h) -> ~ In id ids -> indexed e0 d id h = Some (box_of (W id))) ->
  (forall id, In id (all_members h) -> placed (class_of (now fresh W ids id)) (box_of (now fresh W ids id)) /\ in_range p (class_of (now fresh W ids id))) ->
  let s := fold_left (reindex_shape fresh) ids (mkRS W (env_now e0 h) (run e0 h)) in let out := point_query_nearest (rs_shapes s) (rs_index s) p maxd f in
  let dist_to id := pi_dist (point_query (class_of (now fresh W ids id)) p) in
  match fst out with
  | None => forall id, In id (all_members h) -> visible f (now fresh W ids id) -> (maxd <= dist_to id)%R
  | Some i => In i (all_members h) /\ visible f (now fresh W ids i) /\ snd out = point_query (class_of (now fresh W ids i)) p /\ (dist_to i < maxd)%R /\
              forall id, In id (all_members h) -> visible f (now fresh W ids id) -> (dist_to i <= dist_to id)%R
  end.
Proof.
  intros e0 fresh W h ids p maxd f V M Fi U P s out dist_to. destruct (C139_reindexed e0 fresh W h ids V M Fi U) as (h' & V' & I & Mh & U' & S). fold s in I, U', S.
  assert (A : all_members h' = all_members h) by (unfold all_members; now rewrite !Mh).
  assert (P' : forall id, In id (all_members h') -> placed (class_of (rs_shapes s id)) (box_of (rs_shapes s id)) /\ in_range p (class_of (rs_shapes s id))) by (intros id J; rewrite S; apply P; now rewrite <- A).
  pose proof (C15_nearest (rs_shapes s) e0 h' p maxd f V' U' P') as C. cbv zeta in C. rewrite <- I, A in C. fold out in C. unfold dist_to.
  destruct (fst out) as [i|].
  - rewrite S in C. destruct C as (C1 & C2 & C3 & C4 & C5). repeat split; auto; try apply C2. intros id J Vj. specialize (C5 id J). rewrite S in C5. auto.
  - intros id J Vj. specialize (C id J). rewrite S in C. auto.
Qed.
(** three discs; disc 1, in the static tree, is moved to (20,20) and reindexed: the box query there finds it and the one at its old place does not *)
Definition moved_discs (id : nat) : QShape F := disc 20 20.
Example C139_nonvacuous : let s := fold_left (reindex_shape moved_discs) [1] (mkRS discs (env_now disc_env disc_history) (run disc_env disc_history)) in
  valid disc_env disc_history /\ In 1 (all_members disc_history) /\ fits (vel disc_env) moved_discs /\
  bb_query (rs_shapes s) (rs_index s) (fbox 19 19 20 20) (mkFilter 0 4294967295 4294967295) = [1] /\ bb_query (rs_shapes s) (rs_index s) (fbox 0 0 1 1) (mkFilter 0 4294967295 4294967295) = [0] /\
  bb_query discs (run disc_env disc_history) (fbox 0 0 1 1) (mkFilter 0 4294967295 4294967295) = [1; 0].
Proof.
  intros s. split; [exact disc_valid|]. split; [vm_compute; auto|]. split; [apply C10_fat_box; intros k; repeat split; vm_compute; reflexivity|]. repeat split; vm_compute; reflexivity.
Qed.
Print Assumptions C139_reindexed. Print Assumptions C139_box_query. Print Assumptions C139_nearest.
