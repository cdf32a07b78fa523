(** The spatial hash (spacehash.go), over every valid history of operations. *)
From Coq Require Import Reals ZArith Bool List Arith Lra Lia Permutation.
From Flocq Require Import IEEE754.BinarySingleNaN Core.
From Verif Require Import Num Spec SpecIndex SpecSpaceHash.
From Verif.Model Require Import Vector BB SpaceHash.
From Verif.Proofs Require Import SpHashPf SpHashPf2 SpHashPf3 SpHashFloor SpHashSeg RTac.
Import ListNotations.
Local Open Scope nat_scope.
Lemma nodup_map_inj {A B} (f : A -> B) l : (forall x y, In x l -> In y l -> f x = f y -> x = y) -> NoDup l -> NoDup (map f l).
Proof.
  intros Ij N. induction N as [|x l Nx _ IH]; cbn; [constructor|]. constructor; [|apply IH; intros; apply Ij; auto; now right]. rewrite in_map_iff. intros (y & E & Y). apply Ij in E; [subst; contradiction|now right|now left].
Qed.
Section C.
Context {T : Type} {NT : Num T}.
Variables (dim : T) (n : nat) (box0 : nat -> BB T).

(** C16: a query reports, each exactly once, the objects of the index whose box, as last indexed, has a slot of the hash in common with the box of the query; never the object it is asked for. *)
Theorem C16_query : 0 < n -> forall h, hvalid dim n box0 h -> forall q x, let '(_, out) := sh_query (hrun dim n box0 h) q x in
  NoDup out /\ forall o, In o out <-> In o (hmembers h) /\ q <> Some o /\ share dim n (hindexed box0 o h) x.
Proof.
  intros P h V q x. destruct (history_ok dim n box0 P h V) as [Iv Od En Ed Nd Mm Cc]. pose proof (query_ok _ q x Iv Od ltac:(rewrite En; exact P)) as Q. destruct (sh_query (hrun dim n box0 h) q x) as [s' out]. destruct Q as (_ & _ & _ & N & M). split; [exact N|].
  intros o. rewrite M, Mm. unfold share. assert (SL : slots (hrun dim n box0 h) x = map (slot n) (cells dim x)) by (unfold slots; now rewrite En, Ed). rewrite SL. split.
  - intros (A & B & i & J & K). apply Cc in K as [_ K]. eauto.
  - intros (A & B & i & J & K). split; [exact A|]. split; [exact B|]. exists i. split; [exact K|]. apply Cc. auto.
Qed.
(** C16: the number of objects, and whether an object is in the index. *)
Theorem C16_count : 0 < n -> forall h, hvalid dim n box0 h -> sh_count (hrun dim n box0 h) = length (hmembers h) /\ forall o, sh_contains (hrun dim n box0 h) o = true <-> In o (hmembers h).
Proof.
  intros P h V. destruct (history_ok dim n box0 P h V) as [Iv Od En Ed Nd Mm Cc]. set (s := hrun dim n box0 h) in *. split.
  - unfold sh_count. rewrite <- (map_length (fun g => match h_obj (heap s g) with Some o => o | None => 0 end) (handles s)). apply Permutation_length. apply NoDup_Permutation.
    + apply nodup_map_inj; [|apply (i_nd s Iv)]. intros g g' G G' E. destruct (i_live s Iv g G) as (o & Eo), (i_live s Iv g' G') as (o' & Eo'). rewrite Eo, Eo' in E. subst o'. eapply (i_inj s Iv); eauto.
    + exact Nd.
    + intros o. rewrite <- Mm, in_map_iff. split.
      * intros (g & E & G). destruct (i_live s Iv g G) as (o' & E'). rewrite E' in E. subst o'. exists g. split; assumption.
      * intros (g & G & E). exists g. rewrite E. auto.
  - intros o. rewrite <- Mm. unfold sh_contains. destruct (find_handle s o) as [g|] eqn:E; split; try discriminate; auto.
    + intros _. exists g. now apply find_some.
    + intros M. exfalso. exact (find_none s o E M).
Qed.
(** C16: retain counts.  A handle something refers to has as many retains as references: one from the handle set if it is in it, one from each chain it is in (no chain holds it twice).
    The pool holds no handle that is referred to, and none twice, so that what it gives out is free. *)
Theorem C16_retains : 0 < n -> forall h, hvalid dim n box0 h -> let s := hrun dim n box0 h in
  (forall g, in_use s g -> h_retains (heap s g) = Z.of_nat ((if in_dec Nat.eq_dec g (handles s) then 1 else 0) + length (filter (fun i => if in_dec Nat.eq_dec g (table s i) then true else false) (seq 0 n)))) /\
  (forall i, NoDup (table s i)) /\ (forall i, n <= i -> table s i = []) /\
  NoDup (pool s) /\ forall g, In g (pool s) -> ~ in_use s g.
Proof.
  intros P h V. cbv zeta. destruct (history_ok dim n box0 P h V) as [Iv Od En Ed Nd Mm Cc]. set (s := hrun dim n box0 h) in *. split; [|split; [|split; [|split]]].
  - intros g U. rewrite (i_ret s Iv g U). unfold refs. rewrite En. f_equal. f_equal.
    + destruct (in_dec Nat.eq_dec g (handles s)) as [Q|Q]; [rewrite (proj2 (mem_in _ _) Q)|rewrite (proj2 (mem_out _ _) Q)]; reflexivity.
    + f_equal. apply filter_ext. intros i. destruct (in_dec Nat.eq_dec g (table s i)) as [Q|Q]; [now apply mem_in|now apply mem_out].
  - apply (i_tnd s Iv).
  - intros i L. destruct (table s i) as [|g l] eqn:E; [reflexivity|]. exfalso. destruct (i_tab s Iv i g) as [Q _]; [rewrite E; now left|]. rewrite En in Q. lia.
  - apply (i_pnd s Iv).
  - apply (i_pool s Iv).
Qed.
(** C16: rehashing calls back exactly once for every two objects of the index whose boxes now have a slot in common, and for no other pair. *)
Theorem C16_pairs : 0 < n -> forall h order, hvalid dim n box0 h -> Permutation order (hmembers h) -> let '(_, calls) := sh_reindex_query (box_now box0 h) order (hrun dim n box0 h) in
  (forall a b, In (a, b) calls -> In a (hmembers h) /\ In b (hmembers h) /\ a <> b) /\
  forall a b, a <> b -> times a b calls <= 1 /\ (times a b calls = 1 <-> In a (hmembers h) /\ In b (hmembers h) /\ share dim n (box_now box0 h a) (box_now box0 h b)).
Proof.
  intros P h order V Pm. destruct (history_ok dim n box0 P h V) as [Iv Od En Ed Nd Mm Cc].
  pose proof (reindex_query_ok (box_now box0 h) order (hrun dim n box0 h) Iv Od ltac:(rewrite En; exact P) ltac:(eapply Permutation_NoDup; [symmetry; exact Pm|exact Nd]) ltac:(intros y; rewrite Mm; split; apply Permutation_in; [exact Pm|now symmetry])) as C.
  destruct (sh_reindex_query (box_now box0 h) order (hrun dim n box0 h)) as [s' calls]. destruct C as (_ & _ & _ & _ & _ & _ & C1 & C2). split.
  - intros a b Q. apply C1 in Q. rewrite !Mm in Q. exact Q.
  - intros a b D. destruct (C2 a b D) as [L E]. split; [exact L|]. rewrite E, !Mm. unfold meet, share. assert (SL : forall x, slots (hrun dim n box0 h) x = map (slot n) (cells dim x)) by (intros x; unfold slots; now rewrite En, Ed). rewrite !SL. tauto.
Qed.
(** C16: the objects of the dynamic index against the static index: exactly one call for each pair of a dynamic and another, static object whose boxes have a slot in common. *)
Theorem C16_static : 0 < n -> forall h box objs, hvalid dim n box0 h -> NoDup objs -> let '(_, calls) := sh_collide_static box objs (hrun dim n box0 h) in
  NoDup calls /\ forall a b, In (a, b) calls <-> In a objs /\ In b (hmembers h) /\ a <> b /\ share dim n (box a) (hindexed box0 b h).
Proof.
  intros P h box objs V No. pose proof (C16_count P h V) as [CT _]. destruct (history_ok dim n box0 P h V) as [Iv Od En Ed Nd Mm Cc]. unfold sh_collide_static. rewrite CT. destruct (Nat.eqb_spec (length (hmembers h)) 0) as [Z|_].
  { apply length_zero_iff_nil in Z. rewrite Z. split; [constructor|]. intros a b. split; [intros []|intros (_ & [] & _)]. }
  pose proof (static_fold box objs (hrun dim n box0 h) [] No Iv Od ltac:(rewrite En; exact P)) as C. destruct (fold_left _ objs (hrun dim n box0 h, [])) as [s' calls]. destruct C as (new & -> & _ & _ & _ & C1 & C2). cbn [app]. split; [exact C1|].
  intros a b. rewrite C2, Mm. unfold share. assert (SL : slots (hrun dim n box0 h) (box a) = map (slot n) (cells dim (box a))) by (unfold slots; now rewrite En, Ed). rewrite SL. split.
  - intros (A & B & D & i & J & K). apply Cc in K as [_ K]. repeat split; auto. eauto.
  - intros (A & B & D & i & J & K). repeat split; auto. exists i. split; [exact J|]. apply Cc. auto.
Qed.
(** C101: Reindex empties the table and puts nothing back: whatever the history, no query finds anything afterwards. *)
Theorem C101_reindex_refuted : 0 < n -> forall h, hvalid dim n box0 h -> forall q x, snd (sh_query (sh_reindex (hrun dim n box0 h)) q x) = [].
Proof.
  intros P h V q x. destruct (history_ok dim n box0 P h V) as [Iv Od En Ed Nd Mm Cc]. set (s := hrun dim n box0 h) in *. unfold sh_reindex. destruct (clear_ok s Iv) as (A & B1 & B2 & B3 & B4 & B5 & B6).
  pose proof (query_ok (clear_table s) q x A (clear_old s Iv Od) ltac:(rewrite B1, En; exact P)) as Q. destruct (sh_query (clear_table s) q x) as [s' out]. destruct Q as (_ & _ & _ & _ & M). cbn [snd]. destruct out as [|o out]; [reflexivity|]. exfalso. destruct (proj1 (M o) ltac:(now left)) as (_ & _ & i & _ & g & _ & K). rewrite B6 in K. destruct K.
Qed.
End C.

(** C16: the boxes that overlap have a slot in common; so queries and rehashing miss no overlapping object.  Doubles: cell size positive, coordinates finite and within 2^62 cells of the origin (beyond that int(f) is not defined). *)
Theorem C16_overlap_F (dim : F) n (x y : BB F) : is_finite dim = true -> (0 < B2R dim)%R -> on_grid (fits_F dim) x -> on_grid (fits_F dim) y -> bb_intersects x y = true -> share dim n x y.
Proof. intros Fd P. apply intersect_share. intros a b A B L. now apply cell_mono_F. Qed.
Theorem C16_overlap_R (dim : R) n (x y : BB R) : (0 < dim)%R -> ordered x -> ordered y -> bb_intersects x y = true -> share dim n x y.
Proof. intros P [A B] [C D]. apply (intersect_share dim (fun _ => True)); [intros a b _ _ L; now apply cell_mono_R| |]; repeat split; assumption. Qed.
(** C16: so a query misses no object whose box it touches. *)
Theorem C16_complete_F (dim : F) n box0 h q x o : 0 < n -> is_finite dim = true -> (0 < B2R dim)%R -> hvalid dim n box0 h -> In o (hmembers h) -> q <> Some o ->
  on_grid (fits_F dim) (hindexed box0 o h) -> on_grid (fits_F dim) x -> bb_intersects (hindexed box0 o h) x = true ->
  count_occ Nat.eq_dec (snd (sh_query (hrun dim n box0 h) q x)) o = 1.
Proof.
  intros P Fd Pd V M N G1 G2 I. pose proof (C16_query dim n box0 P h V q x) as C. destruct (sh_query (hrun dim n box0 h) q x) as [s' out]. destruct C as [ND E]. cbn [snd]. apply count_in; [exact ND|]. apply E. split; [exact M|]. split; [exact N|]. now apply C16_overlap_F.
Qed.

(** C102: what a segment query reports, for a callback that may return anything at each call ([flog g] notes the calls and returns [g calls object]).
    Every object at most once, only objects of the index; and every object whose indexed box contains the point of the segment at [t] is reported, unless the query was cut short before [t].
    Not when the start lies exactly on a line of the grid that the segment moves away from in negative direction ([away_from_line], see C103), and not for the isolated points where a segment going left and up passes exactly through a corner of the grid.
    For a segment parallel to an axis the distance to the grid line below it must not be a denormal fraction of a cell. *)
Definition on_line (dim c : R) : Prop := exists i, (c / dim = IZR i)%R.
Definition away_from_line (dim a b : R) : Prop := ((b < a)%R -> ~ on_line dim a) /\ (a = b -> on_line dim a \/ (1 <= (a / dim - IZR (Zfloor (a / dim))) * MaxFloat64)%R).
Definition left_up_corner (dim : R) (a b : Vec R) (t : R) : Prop := (vx b < vx a)%R /\ (vy a < vy b)%R /\ on_line dim (vx (seg_point a b t)) /\ on_line dim (vy (seg_point a b t)).
Theorem C102_segment (dim : R) n box0 h g fuel a b te s' out : 0 < n -> (0 < dim)%R -> hvalid dim n box0 h ->
  sh_segment_query (flog g) fuel (hrun dim n box0 h) a b [] te = Some (s', out) ->
  NoDup out /\ (forall o, In o out -> In o (hmembers h)) /\
  forall t o, (0 <= t < te)%R -> (t < 1)%R -> In o (hmembers h) -> in_box (hindexed box0 o h) (seg_point a b t) ->
  (forall before o' after, out = before ++ o' :: after -> (t < g before o')%R) ->
  away_from_line dim (vx a) (vx b) -> away_from_line dim (vy a) (vy b) -> ~ left_up_corner dim a b t -> In o out.
Proof.
  intros P Pd V Q. destruct (history_ok dim n box0 P h V) as [Iv Od En Ed Nd Mm Cc]. set (s := hrun dim n box0 h) in *.
  assert (P' : 0 < numcells s) by now rewrite En. assert (Fr : fresh s) by (intros z U; apply Nat.lt_le_incl; now apply Od).
  assert (R0 : reported s None []). { split; [constructor|]. split; [|intros o []]. intros o. split; [intros []|]. intros (y & [L _] & E). exfalso. assert (h_stamp (heap s y) < hstamp s) by (apply Od; now left). lia. }
  unfold sh_segment_query in Q. rewrite Ed in Q. cbn [vmult vx vy] in Q. unR. assert (Ei : forall c : R, (c * (1 / dim) = c / dim)%R) by (intros; field; lra). rewrite !Ei in Q.
  destruct (axis (vx a / dim) (vx b / dim))%R as [[xi dtx] nh] eqn:EX. destruct (axis (vy a / dim) (vy b / dim))%R as [[yi dty] nv] eqn:EY.
  destruct (grid_ext g _ _ _ _ _ _ _ _ _ _ _ _ _ _ _ Iv Fr P' R0 Q) as (G1 & G2 & _). split; [exact G1|]. split; [intros o O; apply Mm; now apply G2|].
  intros t o T T1 Mo In_ Hg [AX1 AX2] [AY1 AY2] NC.
  assert (ON : forall c, IZR (Zfloor (c / dim)%R) = (c / dim)%R -> on_line dim c) by (intros c E; eexists; symmetry; exact E).
  assert (NO : forall c, on_line dim c -> IZR (Zfloor (c / dim)%R) = (c / dim)%R) by (intros c (i & E); rewrite E; now rewrite Zfloor_IZR).
  assert (LT : forall u v, (u / dim < v / dim)%R -> (u < v)%R) by (intros u v L; apply (Rmult_lt_reg_r (/ dim)); [now apply Rinv_0_lt_compat|exact L]).
  pose proof (axis_start (vx a / dim) (vx b / dim) t ltac:(lra) ltac:(intros L E; apply AX1; [now apply LT|now apply ON]) ltac:(intros E; assert (E' : vx a = vx b) by (apply (Rmult_eq_reg_r (/ dim)); [exact E|apply Rinv_neq_0_compat; lra]); destruct (AX2 E') as [Z|Z]; [left; now apply NO|right; exact Z])) as X.
  pose proof (axis_start (vy a / dim) (vy b / dim) t ltac:(lra) ltac:(intros L E; apply AY1; [now apply LT|now apply ON]) ltac:(intros E; assert (E' : vy a = vy b) by (apply (Rmult_eq_reg_r (/ dim)); [exact E|apply Rinv_neq_0_compat; lra]); destruct (AY2 E') as [Z|Z]; [left; now apply NO|right; exact Z])) as Y.
  rewrite EX in X. rewrite EY in Y.
  assert (PX : (vx a / dim + t * (vx b / dim - vx a / dim) = vx (seg_point a b t) / dim)%R) by (cbn; field; lra).
  assert (PY : (vy a / dim + t * (vy b / dim - vy a / dim) = vy (seg_point a b t) / dim)%R) by (cbn; field; lra).
  refine (grid_visits g (vx a / dim)%R (vy a / dim)%R (vx b / dim - vx a / dim)%R (vy b / dim - vy a / dim)%R t _ _ _ _ _ _ _ _ _ _ _ _ _ _ _ _ Iv Fr P' R0 X Y _ _ T1 Q Hg o _); try lra.
  - rewrite PX, PY. intros (B1 & B2 & B3 & B4). apply NC. split; [apply LT; lra|]. split; [apply LT; lra|]. split; assumption.
  - apply Cc. split; [exact Mo|]. rewrite En. apply in_map. rewrite PX, PY. apply cells_in. destruct In_ as (I1 & I2 & I3 & I4). rewrite <- !gfloor_R. repeat split; now apply cell_mono_R.
Qed.
(** C102: and it ends, whatever the callback returns. *)
Theorem C102_ends (s : hash R) a b te : (te <= 1)%R -> exists fuel0, forall fuel (S : Type) (f : S -> nat -> S * R) st, fuel0 <= fuel -> sh_segment_query f fuel s a b st te <> None.
Proof.
  intros L. unfold sh_segment_query. destruct (axis _ _) as [[xi dtx] nh] eqn:EX. destruct (axis (vy _) _) as [[yi dty] nv] eqn:EY.
  match type of EX with axis ?u ?v = _ => pose proof (axis_dt u v) as DX end. rewrite EX in DX. match type of EY with axis ?u ?v = _ => pose proof (axis_dt u v) as DY end. rewrite EY in DY.
  assert (AR : forall nh dt : R, (0 < dt)%R -> exists k : nat, (1 <= nh + INR k * dt)%R). { intros x dt D. exists (Z.to_nat (up ((1 - x) / dt))). destruct (archimed ((1 - x) / dt)) as [K _]. assert (K' : ((1 - x) / dt <= INR (Z.to_nat (up ((1 - x) / dt))))%R). { destruct (Z.le_gt_cases 0 (up ((1 - x) / dt))) as [Z|Z]; [rewrite INR_IZR_INZ, Z2Nat.id by exact Z; lra|]. apply IZR_lt in Z. pose proof (pos_INR (Z.to_nat (up ((1 - x) / dt)))). lra. } assert ((1 - x) / dt * dt <= INR (Z.to_nat (up ((1 - x) / dt))) * dt)%R by (apply Rmult_le_compat_r; [lra|exact K']). assert ((1 - x) / dt * dt = 1 - x)%R by (field; lra). lra. }
  destruct (AR nh dtx DX) as (nx & X), (AR nv dty DY) as (ny & Y). exists (nx + ny + 2). intros fuel S f st Fu. eapply grid_ends; eauto.
Qed.

(** ** A history: 10 slots, cells of size 10; three objects, one moves, one is removed, the pool hands its handle out again. *)
Definition zb (l b r t : Z) : BB F := mkBB (Flit l 1) (Flit b 1) (Flit r 1) (Flit t 1).
Definition demo_box (o : nat) : BB F := match o with 1 => zb 0 0 5 5 | 2 => zb 3 3 25 8 | 3 => zb (-15) (-5) (-12) 4 | _ => zb 1 1 2 2 end.
Definition demo_box2 (o : nat) : BB F := match o with 1 => zb 40 0 45 5 | _ => demo_box o end.
Definition demo : list (hop F) := rev [HInsert 1 100; HInsert 2 101; HInsert 3 102; HQuery (Some 1) (zb 0 0 5 5); HMove demo_box2; HReindexObject 1 103; HRemove 3; HQuery None (zb (-100) (-100) 100 100); HInsert 4 102; HReindexQuery [4; 1; 2]].
(** validity, computed *)
Definition freeb (s : hash F) (g : nat) : bool := existsb (Nat.eqb g) (pool s) || (negb (existsb (Nat.eqb g) (handles s)) && forallb (fun i => negb (existsb (Nat.eqb g) (table s i))) (seq 0 (numcells s))).
Definition allowedb (dim : F) n box0 (o : hop F) (h : list (hop F)) : bool :=
  match o with
  | HMove _ | HQuery _ _ => true
  | HInsert o g => negb (existsb (Nat.eqb o) (hmembers h)) && freeb (hrun dim n box0 h) g
  | HRemove o => existsb (Nat.eqb o) (hmembers h)
  | HReindexObject o g => existsb (Nat.eqb o) (hmembers h) && freeb (sh_remove (hrun dim n box0 h) o) g
  | HReindexQuery order => (length order =? length (hmembers h)) && forallb (fun o => existsb (Nat.eqb o) order) (hmembers h)
  | HSegment f fuel a b t => match sh_segment_query f fuel (hrun dim n box0 h) a b [] t with Some _ => true | None => false end
  end.
Fixpoint validb (dim : F) n box0 (h : list (hop F)) : bool := match h with [] => true | o :: h => allowedb dim n box0 o h && validb dim n box0 h end.
Lemma freeb_ok (s : hash F) g : Inv s -> freeb s g = true -> pool_may_return s g.
Proof.
  intros I B. apply orb_prop in B as [B|B]; [left; now apply mem_in|right]. apply andb_prop in B as [B1 B2]. rewrite negb_true_iff in B1. apply mem_out in B1. intros [U|(i & U)]; [contradiction|]. destruct (i_tab s I i g U) as [L _]. rewrite forallb_forall in B2. specialize (B2 i ltac:(apply in_seq; lia)). rewrite negb_true_iff in B2. apply mem_out in B2. contradiction.
Qed.
Lemma validb_ok (dim : F) n box0 : 0 < n -> forall h, validb dim n box0 h = true -> hvalid dim n box0 h.
Proof.
  intros P. induction h as [|o h IH]; cbn [validb hvalid]; [auto|]. intros B. apply andb_prop in B as [B V]. specialize (IH V). split; [|exact IH]. destruct (history_ok dim n box0 P h IH) as [Iv Od En Ed Nd Mm Cc].
  destruct o as [b|o g|o|o g|order|q x|f fuel a b te]; cbn [allowedb hallowed] in *; auto.
  - apply andb_prop in B as [B1 B2]. rewrite negb_true_iff in B1. apply mem_out in B1. split; [exact B1|now apply freeb_ok].
  - now apply mem_in.
  - apply andb_prop in B as [B1 B2]. apply mem_in in B1. split; [exact B1|]. apply freeb_ok; [|exact B2]. apply remove_ok; auto. now apply Mm.
  - apply andb_prop in B as [B1 B2]. apply Nat.eqb_eq in B1. rewrite forallb_forall in B2. symmetry. apply NoDup_Permutation_bis; [exact Nd|lia|]. intros y Y. apply mem_in. now apply B2.
  - destruct (sh_segment_query _ _ _ _ _ _ _); discriminate.
Qed.
Example C16_nonvacuous : hvalid (Flit 10 1) 10 demo_box demo /\ hmembers demo = [4; 2; 1] /\
  snd (sh_query (hrun (Flit 10 1) 10 demo_box demo) (Some 4) (zb 0 0 5 5)) = [2] /\
  snd (sh_reindex_query (box_now demo_box demo) [4; 1; 2] (hrun (Flit 10 1) 10 demo_box demo)) = [(2, 4)] /\
  snd (sh_collide_static demo_box [1; 7] (hrun (Flit 10 1) 10 demo_box demo)) = [(1, 2); (1, 4); (7, 2); (7, 4)] /\
  pool (hrun (Flit 10 1) 10 demo_box demo) = [100].
Proof. split; [apply validb_ok; [lia|]; vm_compute; reflexivity|]. do 4 (split; [vm_compute; reflexivity|]). vm_compute; reflexivity. Qed.
(** an object that the query finds is lost by Reindex *)
Example C101_nonvacuous : bb_intersects (hindexed demo_box 2 demo) (zb 0 0 5 5) = true /\ snd (sh_query (hrun (Flit 10 1) 10 demo_box demo) None (zb 0 0 5 5)) = [2; 4] /\ snd (sh_query (sh_reindex (hrun (Flit 10 1) 10 demo_box demo)) None (zb 0 0 5 5)) = [].
Proof. do 2 (split; [vm_compute; reflexivity|]). vm_compute; reflexivity. Qed.
(** C103: with cells of size 1 the segment from (3, 1/2) to (1/2, 1/2) runs to the middle of the object's box [0.2, 0.8]^2, but the walk stops in cell (1, 0): a start on a grid line makes it one cell late. *)
Definition line_box (o : nat) : BB F := mkBB (Flit 1 5) (Flit 1 5) (Flit 4 5) (Flit 4 5).
Definition one_object : list (hop F) := [HInsert 1 0].
Definition seg_out (a b : Vec F) : option (list nat) := match sh_segment_query (fun st o => (st ++ [o], Flit 1 1)) 50 (hrun (Flit 1 1) 100 line_box one_object) a b [] (Flit 1 1) with Some (_, out) => Some out | None => None end.
Theorem C103_from_grid_line_refuted : hvalid (Flit 1 1) 100 line_box one_object /\
  nltb (bb_segment_query (line_box 1) (mkV (Flit 3 1) (Flit 1 2)) (mkV (Flit 1 2) (Flit 1 2))) (Flit 99 100) = true /\
  seg_out (mkV (Flit 3 1) (Flit 1 2)) (mkV (Flit 1 2) (Flit 1 2)) = Some [] /\
  seg_out (mkV (Flit 1 2) (Flit 1 2)) (mkV (Flit 3 1) (Flit 1 2)) = Some [1].
Proof. split; [apply validb_ok; [lia|]; vm_compute; reflexivity|]. split; [vm_compute; reflexivity|]. split; vm_compute; reflexivity. Qed.
(** the hypotheses of C102 are met by the segment from (7/2, 1/2) down to (1/2, 1/2) and an object it reaches at 9/10 of the way *)
Example C102_nonvacuous : let box := fun _ : nat => mkBB (1/5)%R (1/5)%R (4/5)%R (4/5)%R in let a := mkV (7/2)%R (1/2)%R in let b := mkV (1/2)%R (1/2)%R in
  hvalid 1%R 100 box [HInsert 1 0] /\ in_box (hindexed box 1 [HInsert 1 0]) (seg_point a b (9/10)%R) /\ away_from_line 1%R (vx a) (vx b) /\ away_from_line 1%R (vy a) (vy b) /\ ~ left_up_corner 1%R a b (9/10)%R.
Proof.
  cbv zeta. split; [split; [|exact Logic.I]; split; [intros []|]; right; intros [[]|(i & [])]|]. split; [unfold in_box; cbn [hindexed Nat.eqb box_now bl br bb bt seg_point vx vy nleb numR]; repeat split; apply Rleb_true; lra|].
  assert (Fl : Zfloor (1 / 2 / 1)%R = 0%Z) by (apply Zfloor_imp; cbn; lra).
  split; [|split].
  - split; [|cbn; lra]. intros _ (i & E). cbn in E. assert (E1 : (IZR (2 * i) = IZR 7)%R) by (rewrite mult_IZR; lra). apply eq_IZR in E1. lia.
  - split; [cbn; lra|]. intros _. right. cbn [vy]. rewrite Fl. assert (2 <= MaxFloat64)%R by (unfold MaxFloat64; apply IZR_le; vm_compute; discriminate). lra.
  - intros (_ & Q & _). cbn in Q. lra.
Qed.
Print Assumptions C16_query.
Print Assumptions C16_count.
Print Assumptions C16_retains.
Print Assumptions C16_pairs.
Print Assumptions C16_static.
Print Assumptions C16_overlap_F.
Print Assumptions C16_overlap_R.
Print Assumptions C16_complete_F.
Print Assumptions C101_reindex_refuted.
Print Assumptions C102_segment.
Print Assumptions C102_ends.
Print Assumptions C103_from_grid_line_refuted.
