(** Properties C10-C13: the bounding-box tree over all histories of operations.
    Everything here is exact binary64 arithmetic. *)
From Coq Require Import Reals ZArith Bool List Arith Lia Permutation.
From Flocq Require Import IEEE754.BinarySingleNaN.
From Verif Require Import Num Spec SpecIndex.
From Verif.Model Require Import Vector BB BBTree.
From Verif.Proofs Require Import BBTreeTop FloatMono.
Import ListNotations.
Local Open Scope nat_scope.

(** ** C10 *)
(** When is an environment usable?  Whenever every box is finite with ordered sides and no velocity is NaN. *)
Theorem C10_fat_box : forall e : env F,
  (forall id, is_finite (bl (cur e id)) = true /\ is_finite (bb (cur e id)) = true /\
              is_finite (br (cur e id)) = true /\ is_finite (bt (cur e id)) = true /\
              ordered (cur e id) /\ ok_vec (vel e id)) -> env_ok e.
Proof.
  intros e H [|] id; destruct (H id) as (H1 & H2 & H3 & H4 & H5 & H6); cbn [get_bb].
  - now apply fat_bb_float.
  - apply BBOrder.subbox_refl. now apply BBOrder.ordered_ok.
Qed.
(** [nested t]: at every interior node the box contains the boxes of all leaves below. *)
Theorem C10_tree_well_formed : forall (e0 : env F) (h : list (op F)), valid e0 h -> forall d,
  Permutation (map lid (oleaves (get_tree d (run e0 h)))) (members d h) /\
  NoDup (map lid (oleaves (get_tree d (run e0 h)))) /\
  (forall t, get_tree d (run e0 h) = Some t -> nested t) /\
  (forall l, In l (oleaves (get_tree d (run e0 h))) ->
     exists b, indexed e0 d (lid l) h = Some b /\ subbox b (lbb l)).
Proof.
  intros e0 h Hv d. destruct (tree_wellformed e0 h Hv d) as (H1 & H2 & H3 & H4).
  exact (conj (leaves_members e0 d h Hv) (conj H2 (conj H3 H4))).
Qed.

(** ** C11 *)
Theorem C11_query_complete_exact : forall (e0 : env F) (h : list (op F)) (q : BB F), valid e0 h -> forall d,
  let r := ix_query (get_tree d (run e0 h)) q in
  NoDup r /\
  (forall id b, In id (members d h) -> indexed e0 d id h = Some b -> bb_intersects b q = true -> In id r) /\
  (forall id, In id r -> In id (members d h) /\
     exists l, In l (oleaves (get_tree d (run e0 h))) /\ lid l = id /\ bb_intersects (lbb l) q = true).
Proof. exact query_spec. Qed.

(** ** C12 *)
Theorem C12_pairs_reported_once : forall (e0 : env F) (h : list (op F)) (order : list nat),
  valid e0 (OReindexQuery order :: h) ->
  let rep := snd (ix_reindex_query (env_now e0 h) order (run e0 h)) in
  (forall i j, In i (members true h) -> In j (members true h) -> i <> j ->
     bb_intersects (cur (env_now e0 h) i) (cur (env_now e0 h) j) = true -> times i j rep = 1) /\
  (forall i j b, In i (members true h) -> In j (members false h) ->
     indexed e0 false j h = Some b ->
     bb_intersects (cur (env_now e0 h) i) b = true -> times i j rep = 1) /\
  (forall i j, i <> j -> times i j rep <= 1) /\
  (forall i j, In (i, j) rep -> i <> j /\
     (In i (members true h) /\ In j (members true h) \/
      In i (members true h) /\ In j (members false h) \/
      In i (members false h) /\ In j (members true h)) /\
     exists x y, lid x = i /\ lid y = j /\
       In x (oleaves (dyn (run e0 (OReindexQuery order :: h))) ++ oleaves (sta (run e0 (OReindexQuery order :: h)))) /\
       In y (oleaves (dyn (run e0 (OReindexQuery order :: h))) ++ oleaves (sta (run e0 (OReindexQuery order :: h)))) /\
       bb_intersects (lbb x) (lbb y) = true).
Proof. exact reindex_reports. Qed.

(** A concrete history meeting the hypotheses: three moving boxes and a static one, two steps,
    with a removal and a reinsertion in between. *)
Definition fbox (l b r t : Z) : BB F := mkBB (Flit l 1) (Flit b 1) (Flit r 1) (Flit t 1).
Definition fvec (x y : Z) : Vec F := mkV (Flit x 1) (Flit y 1).
Definition ex_env (shift : Z) : env F := mkEnv
  (fun id => match id with
   | 0 => fbox 0 0 2 2 | 1 => fbox (shift + 1) 1 (shift + 3) 3
   | 2 => fbox 10 10 12 12 | _ => fbox 2 2 4 4 end)
  (fun id => match id with 0 => fvec 0 0 | 1 => fvec (-1) 3 | _ => fvec 5 5 end).
Definition ex_history : list (op F) :=
  [OReindexQuery [2; 1; 0]; OMove (ex_env 1); OInsert true 2; ORemove true 2; OReindexObject false 3;
   OReindexQuery [0; 1; 2]; OMove (ex_env 0); OInsert true 2; OInsert false 3; OInsert true 1; OInsert true 0].
Lemma ex_env_ok s : (s = 0 \/ s = 1 \/ s = 20)%Z -> env_ok (ex_env s).
Proof.
  intros Hs. apply C10_fat_box. intros id.
  destruct id as [|[|[|id]]]; destruct Hs as [->|[->| ->]]; repeat split; vm_compute; reflexivity.
Qed.
Example C12_nonvacuous : valid (ex_env 0) (OReindexQuery [0; 1; 2] :: OMove (ex_env 20) :: ex_history).
Proof.
  cbn. repeat split; try tauto; try lia; try (apply ex_env_ok; tauto);
  intros; repeat match goal with H : _ \/ _ |- _ => destruct H end; subst; tauto || lia.
Qed.
Example C12_nonvacuous_reports :
  snd (ix_reindex_query (env_now (ex_env 0) (tl ex_history)) [2; 1; 0] (run (ex_env 0) (tl ex_history)))
  = [(1, 3); (1, 0); (3, 0)]
  /\ snd (ix_reindex_query (ex_env 20) [0; 1; 2] (run (ex_env 0) ex_history)) = [(3, 0)]
  /\ ix_query (dyn (run (ex_env 0) ex_history)) (fbox 1 1 2 2) = [1; 0].
Proof. repeat split; vm_compute; reflexivity. Qed.

(** ** C13 is false of the code: a NaN box poisons every ancestor's box (math.Min/Max return NaN),
    and box intersection with NaN is false, so the other shapes under that ancestor are not reported. *)
Definition nan_env : env F := mkEnv
  (fun id => match id with 0 => mkBB Fnan Fnan Fnan Fnan | _ => fbox 0 0 2 2 end) (fun _ => fvec 0 0).
Theorem C13_nan_shape_hides_others_refuted :
  exists (e : env F) (q : BB F) (bad good : nat), bad <> good /\
  (forall id, id <> bad -> ordered (cur e id)) /\
  bb_intersects (cur e good) q = true /\
  (let s := run e [OInsert true bad; OInsert true good] in ix_query (dyn s) q = []) /\
  (let s := run e [OInsert true good; OInsert true bad] in ix_query (dyn s) q = []) /\
  (let s := run e [OInsert true good] in ix_query (dyn s) q = [good]).
Proof.
  exists nan_env, (fbox 1 1 3 3), 0, 1. split; [discriminate|].
  split; [intros [|id] H; [contradiction|]; split; vm_compute; reflexivity|].
  repeat split; vm_compute; reflexivity.
Qed.
Print Assumptions C10_tree_well_formed.
Print Assumptions C11_query_complete_exact.
Print Assumptions C12_pairs_reported_once.
Print Assumptions C13_nan_shape_hides_others_refuted.
