(** Queries of a space. *)
From Coq Require Import Reals ZArith Bool List Arith Lia Lra Permutation.
From Verif Require Import Num Spec SpecShapes SpecIndex SpecQuery.
From Verif.Model Require Import Vector BB BBTree Transform Shapes Handlers Collision Query.
From Verif.Proofs Require Import RTac Util BBOrder BBTreeInv BBTreeTop Geom ShapePf PolyPf PolyPf2 SegQPf.
Import ListNotations.
Local Open Scope nat_scope.

Section Gen.
Context {T : Type} {NT : Num T} {OT : OrdNum T}.
Variables (W : nat -> QShape T) (p : Vec T) (f : Filter).
Notation pq id := (point_query (class_of (W id)) p).
Lemma lt_trans_n (x y z : T) : nltb x y = true -> nltb y z = true -> nltb x z = true.
Proof. rewrite !nlt_iff. intros (A & B & C) (D & E & G). repeat split; auto; lra. Qed.
Lemma step_vis id out : visible f (W id) -> nearest_step W p f out id = if nltb (pi_dist (pq id)) (pi_dist (snd out)) then (Some id, pq id) else out.
Proof. intros [A B]. unfold accepts in A. unfold nearest_step. rewrite A, B. reflexivity. Qed.
Lemma step_not id out : ~ visible f (W id) -> nearest_step W p f out id = out.
Proof. intros N. unfold nearest_step. destruct (reject (qs_filter (W id)) f) eqn:A; [reflexivity|]. destruct (qs_sensor (W id)) eqn:B; [reflexivity|]. exfalso. apply N. split; auto. Qed.
Lemma vis_dec id : {visible f (W id)} + {~ visible f (W id)}.
Proof. unfold visible, accepts. destruct (reject (qs_filter (W id)) f); [right; intros []; discriminate|]. destruct (qs_sensor (W id)); [right; intros []; discriminate|left; auto]. Qed.
Lemma nearest_fold : forall ids out0, let out := fold_left (nearest_step W p f) ids out0 in
  (out = out0 \/ exists id, In id ids /\ visible f (W id) /\ out = (Some id, pq id) /\ nltb (pi_dist (pq id)) (pi_dist (snd out0)) = true) /\
  (forall x, nltb x (pi_dist (snd out)) = true -> nltb x (pi_dist (snd out0)) = true) /\
  (forall id, In id ids -> visible f (W id) -> nltb (pi_dist (pq id)) (pi_dist (snd out)) = false).
Proof.
  induction ids as [|i ids IH]; intros out0; cbn [fold_left]; [cbn; split; [auto|split; [auto|intros ? []]]|].
  destruct (IH (nearest_step W p f out0 i)) as (A & B & C). cbv zeta in A, B, C |- *. destruct (vis_dec i) as [V|V].
  - rewrite (step_vis i out0 V) in *. destruct (nltb (pi_dist (pq i)) (pi_dist (snd out0))) eqn:L.
    + split; [|split].
      * right. destruct A as [A|(id & I & Vi & A & L')]; [exists i; rewrite A; cbn; auto|]. exists id. cbn [In]. split; [auto|]. split; [auto|]. split; [exact A|]. cbn [snd] in L'. eapply lt_trans_n; eauto.
      * intros x X. apply B in X. cbn [snd] in X. eapply lt_trans_n; eauto.
      * intros id [<-|I] Vi; [|auto]. match goal with |- ?x = false => destruct x eqn:Q; [|reflexivity] end. apply B in Q. cbn [snd] in Q. apply nlt_iff in Q as (_ & _ & Q). lra.
    + split; [|split]; auto.
      * destruct A as [A|(id & I & A)]; [auto|]. right. exists id. cbn [In]. auto.
      * intros id [<-|I] Vi; [|auto]. match goal with |- ?x = false => destruct x eqn:Q; [|reflexivity] end. apply B in Q. congruence.
  - rewrite (step_not i out0 V) in *. split; [|split]; auto.
    + destruct A as [A|(id & I & A)]; [auto|]. right. exists id. cbn [In]. auto.
    + intros id [<-|I] Vi; [contradiction|auto].
Qed.
Theorem nearest_ok (e0 : env T) h maxd : valid e0 h ->
  let out := point_query_nearest W (run e0 h) p maxd f in
  (out = (None, mkPI vzero maxd vzero) \/ exists id, In id (all_members h) /\ visible f (W id) /\ out = (Some id, pq id) /\ nltb (pi_dist (pq id)) maxd = true) /\
  (forall d id b, In id (members d h) -> indexed e0 d id h = Some b -> bb_intersects b (bb_circle p (nmax maxd nzero)) = true -> visible f (W id) -> nltb (pi_dist (pq id)) (pi_dist (snd out)) = false).
Proof.
  intros Hv out. set (q := bb_circle p (nmax maxd nzero)) in *. destruct (query_spec e0 h q Hv true) as (_ & C1 & S1). destruct (query_spec e0 h q Hv false) as (_ & C2 & S2). cbn [get_tree] in C1, S1, C2, S2.
  destruct (nearest_fold (ix_query (dyn (run e0 h)) q ++ ix_query (sta (run e0 h)) q) (None, mkPI vzero maxd vzero)) as (A & _ & C). split.
  - destruct A as [A|(id & I & V & A & L)]; [left; exact A|right]. exists id. split; [|split; [exact V|split; [exact A|exact L]]]. unfold all_members. apply in_app_iff in I as [I|I]; apply in_app_iff; [left; now apply S1|right; now apply S2].
  - intros d id b M X B V. apply C; auto. apply in_app_iff. destruct d; [left; eapply C1; eauto|right; eapply C2; eauto].
Qed.
End Gen.
Lemma nodup_join {A} (l m : list A) : NoDup l -> NoDup m -> (forall x, In x l -> In x m -> False) -> NoDup (l ++ m).
Proof. induction 1 as [|x l N _ IH]; intros M D; cbn [app]; [exact M|]. constructor; [rewrite in_app_iff; intros [X|X]; [auto|eapply D; [now left|exact X]]|]. apply IH; auto. intros y Y. apply D. now right. Qed.
Section BBQ.
Context {T : Type} {NT : Num T} {OT : OrdNum T}.
Variable W : nat -> QShape T.
Lemma members_disjoint (e0 : env T) h : valid e0 h -> forall id, In id (members true h) -> In id (members false h) -> False.
Proof.
  induction h as [|o h IH]; [intros _ id []|]. intros [A V] id. specialize (IH V id). destruct o as [e|d i|d i|d i|o]; cbn [members]; auto.
  - destruct A as [A B]. destruct d; cbn [Bool.eqb In]; intros [<-|X] Y || intros X [<-|Y] || idtac; auto.
  - destruct d; cbn [Bool.eqb]; intros X Y; [apply in_remove in X as [X _]|apply in_remove in Y as [Y _]]; auto.
Qed.
Lemma bb_query_ok (e0 : env T) h q f : valid e0 h -> up_to_date e0 h W -> let r := bb_query W (run e0 h) q f in
  NoDup r /\ forall id, In id r <-> In id (all_members h) /\ accepts f (W id) /\ bb_intersects (box_of (W id)) q = true.
Proof.
  intros Hv U r. destruct (query_spec e0 h q Hv true) as (N1 & C1 & S1). destruct (query_spec e0 h q Hv false) as (N2 & C2 & S2). cbn [get_tree] in N1, C1, S1, N2, C2, S2. split.
  - unfold r, bb_query. apply NoDup_filter. apply nodup_join; auto. intros x X Y. eapply members_disjoint; [exact Hv|apply S1, Y|apply S2, X].
  - intros id. unfold r, bb_query. rewrite filter_In, andb_true_iff, negb_true_iff, in_app_iff. unfold accepts, all_members. rewrite in_app_iff. split.
    + intros ([I|I] & A & B); (split; [|auto]); [right; now apply S2|left; now apply S1].
    + intros ([I|I] & A & B); (split; [|auto]); [right|left]; [eapply C1|eapply C2]; eauto; apply U; exact I.
Qed.
End BBQ.
Section ShapeQ.
Context {T : Type} {NT : Num T} {OT : OrdNum T}.
Variables (W : nat -> QShape T) (self : option nat) (a : QShape T).
Hypothesis total : forall b : CShape T, shapes_collide (qs_shape a) b <> None.
(** the shape is not the query shape itself, the filters agree, and the narrow phase gives contacts *)
Definition touched_by (id : nat) (pts : list (CPt T)) : Prop := reject (qs_filter a) (qs_filter (W id)) = false /\ self <> Some id /\ pts <> [] /\ exists n, shapes_collide (qs_shape a) (qs_shape (W id)) = Some (n, pts).
Definition calls_of (id : nat) : list (nat * list (CPt T)) :=
  if reject (qs_filter a) (qs_filter (W id)) || match self with Some i => Nat.eqb i id | None => false end then []
  else match shapes_collide (qs_shape a) (qs_shape (W id)) with Some (_, c :: l) => [(id, c :: l)] | _ => [] end.
Definition any_of (any : bool) (calls : list (nat * list (CPt T))) : bool := match rev calls with [] => any | (id, _) :: _ => negb (qs_sensor a || qs_sensor (W id)) end.
Lemma calls_in id' id pts : In (id, pts) (calls_of id') <-> id = id' /\ touched_by id pts.
Proof.
  unfold calls_of, touched_by. destruct (reject (qs_filter a) (qs_filter (W id'))) eqn:R; cbn [orb]; [split; [intros []|intros (-> & N & _); congruence]|].
  destruct (match self with Some i => Nat.eqb i id' | None => false end) eqn:S.
  - split; [intros []|]. intros (-> & _ & N & _). destruct self as [i|]; [|discriminate]. apply Nat.eqb_eq in S. congruence.
  - assert (NS : self <> Some id') by (intros ->; rewrite Nat.eqb_refl in S; discriminate).
    destruct (shapes_collide (qs_shape a) (qs_shape (W id'))) as [[n [|c pts']]|] eqn:C; cbn [snd].
    + split; [intros []|]. intros (-> & _ & _ & N & n' & E). rewrite C in E. injection E as _ <-. congruence.
    + split.
      * intros [[= <- <-]|[]]. split; [reflexivity|]. split; [exact R|]. split; [exact NS|]. split; [discriminate|]. exists n. exact C.
      * intros (-> & _ & _ & _ & n' & E). rewrite C in E. injection E as _ <-. now left.
    + split; [intros []|]. intros (-> & _ & _ & N & n' & E). congruence.
Qed.
Lemma shape_fold : forall ids calls any, fold_left (shape_step W self a) ids (Some (calls, any)) = Some (calls ++ flat_map calls_of ids, any_of any (flat_map calls_of ids)).
Proof.
  induction ids as [|i ids IH]; intros calls any; cbn [fold_left flat_map]; [now rewrite app_nil_r|].
  assert (E : shape_step W self a (Some (calls, any)) i = Some (calls ++ calls_of i, any_of any (calls_of i))).
  { unfold shape_step, calls_of. destruct (_ || _); [now rewrite app_nil_r|]. destruct (shapes_collide (qs_shape a) (qs_shape (W i))) as [[n [|c pts]]|] eqn:C; [now rewrite app_nil_r|reflexivity|]. exfalso. exact (total _ C). }
  rewrite E, IH, <- app_assoc. f_equal. f_equal. unfold any_of. rewrite rev_app_distr. destruct (rev (flat_map calls_of ids)) as [|[j q] l]; reflexivity.
Qed.
Lemma calls_fst i : map fst (calls_of i) = [] \/ map fst (calls_of i) = [i].
Proof. unfold calls_of. destruct (_ || _); [auto|]. destruct (shapes_collide _ _) as [[n [|c pts]]|]; auto. Qed.
Lemma calls_nodup ids : NoDup ids -> NoDup (map fst (flat_map calls_of ids)) /\ forall x, In x (map fst (flat_map calls_of ids)) -> In x ids.
Proof.
  induction 1 as [|i ids N _ [IH IN]]; cbn [flat_map map]; [split; [constructor|intros ? []]|]. rewrite map_app. split.
  - destruct (calls_fst i) as [->| ->]; cbn [app]; [exact IH|]. constructor; auto.
  - intros x. rewrite in_app_iff. intros [X|X]; [|right; auto]. destruct (calls_fst i) as [Q|Q]; rewrite Q in X; [destruct X|destruct X as [<-|[]]; now left].
Qed.
Theorem shape_query_ok (e0 : env T) h : valid e0 h -> exists calls any, shape_query W (run e0 h) self a = Some (calls, any) /\ NoDup (map fst calls) /\
  (forall id pts, In (id, pts) calls -> In id (all_members h) /\ touched_by id pts) /\
  (forall d id b pts, In id (members d h) -> indexed e0 d id h = Some b -> bb_intersects b (box_of a) = true -> touched_by id pts -> In (id, pts) calls) /\
  any = any_of false calls.
Proof.
  intros Hv. set (q := box_of a). destruct (query_spec e0 h q Hv true) as (N1 & C1 & S1). destruct (query_spec e0 h q Hv false) as (N2 & C2 & S2). cbn [get_tree] in N1, C1, S1, N2, C2, S2.
  assert (ND : NoDup (ix_query (dyn (run e0 h)) q ++ ix_query (sta (run e0 h)) q)) by (apply nodup_join; auto; intros x X Y; eapply members_disjoint; [exact Hv|apply S1, X|apply S2, Y]).
  unfold shape_query. fold q. rewrite shape_fold. cbn [app]. eexists _, _. split; [reflexivity|]. split; [now apply calls_nodup|]. split; [|split; [|reflexivity]].
  - intros id pts I. apply in_flat_map in I as (i & I & C). apply calls_in in C as [-> C]. split; [|exact C]. unfold all_members. apply in_app_iff in I as [I|I]; apply in_app_iff; [left; now apply S1|right; now apply S2].
  - intros d id b pts M X B C. apply in_flat_map. exists id. split; [|apply calls_in; auto]. apply in_app_iff. destruct d; [left; eapply C1; eauto|right; eapply C2; eauto].
Qed.
Lemma any_true calls : any_of false calls = true -> qs_sensor a = false /\ exists id pts, In (id, pts) calls /\ qs_sensor (W id) = false.
Proof.
  unfold any_of. destruct (rev calls) as [|[id pts] l] eqn:R; [discriminate|]. rewrite negb_true_iff, orb_false_iff. intros [A B]. split; [exact A|]. exists id, pts. split; [|exact B]. apply in_rev. rewrite R. now left.
Qed.
Lemma any_all calls : qs_sensor a = false -> (forall id pts, In (id, pts) calls -> qs_sensor (W id) = false) -> (any_of false calls = true <-> calls <> []).
Proof.
  intros A B. unfold any_of. destruct (rev calls) as [|[id pts] l] eqn:R.
  - split; [discriminate|]. intros N. exfalso. apply N. rewrite <- (rev_involutive calls), R. reflexivity.
  - rewrite A, (B id pts) by (apply in_rev; rewrite R; now left). split; [|reflexivity]. intros _ ->. discriminate.
Qed.
End ShapeQ.
