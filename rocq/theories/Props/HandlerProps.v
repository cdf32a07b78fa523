(** Properties C30-C33, C58, C69-C71: collision handlers, filters, pair hashes. *)
From Coq Require Import List NArith Bool Arith Lia.
From Verif Require Import SpecHash SpecHandlers.
From Verif.Model Require Import HashSet Handlers.
From Verif.Proofs Require Import HashSetPf HandlersPf.
Import ListNotations.
Local Open Scope N_scope.

(** ** C58 *)
Theorem C58_hash_pair_symmetric : forall a b, hash_pair a b = hash_pair b a.
Proof. exact hash_pair_comm. Qed.
(** It is a 64-bit value, and it does depend on its arguments. *)
Theorem C58_hash_pair_range : forall a b, hash_pair a b < 2 ^ 64.
Proof.
  intros a b. unfold hash_pair. assert (H : forall x, x mod 2 ^ 64 < 2 ^ 64) by (intros; apply N.mod_lt; discriminate).
  destruct (N.eq_dec (N.lxor ((a * hashCoef) mod 2 ^ 64) ((b * hashCoef) mod 2 ^ 64)) 0) as [->|Z]; [reflexivity|].
  apply N.log2_lt_pow2; [lia|]. eapply N.le_lt_trans; [apply N.log2_lxor|].
  assert (L : forall x, x < 2 ^ 64 -> N.log2 x < 64). { intros x Hx. destruct (N.eq_dec x 0) as [->|Hz]; [reflexivity|]. apply N.log2_lt_pow2; [lia|exact Hx]. }
  apply N.max_lub_lt; apply L; apply H.
Qed.
Example C58_nonvacuous : hash_pair 1 2 <> hash_pair 1 3 /\ hash_pair 1 2 = hash_pair 2 1 /\ hash_pair 7 0 <> 0 /\ hash_pair WILDCARD 1 <> hash_pair WILDCARD 2.
Proof. repeat split; vm_compute; congruence. Qed.

(** ** C30 *)
(** Every history of registrations (fewer than 1610612741 of them) runs without panic; two registrations return the same
    handler exactly when they name the same unordered pair of types, and the handler keeps the order of the first one. *)
Theorem C30_one_handler_per_pair : forall os, N.of_nat (length os) < 1610612741 ->
  exists log s, hrun h_init [] os = Some (log, s) /\
    (forall p k q k', In (p, k) log -> In (q, k') log -> (k_ptr k = k_ptr k' <-> same_pair p q) /\ (same_pair p q -> k = k')) /\
    (forall p k, In (p, k) log -> same_pair p (k_a k, k_b k)).
Proof.
  intros os Hb. destruct (hrun_ok os h_init [] j_init) as (log & s & E & Js & _); [exact Hb|]. exists log, s. split; [exact E|].
  destruct Js as [(L & f & P & I & F & B & ND & _) JT JL].
  assert (S : forall p k, In (p, k) log -> same_pair p (k_a k, k_b k)).
  { intros p k H. destruct (JL _ _ H) as (q & Q). pose proof (JT _ _ _ _ Q) as ->. unfold first_reg in Q. apply find_some in Q as [_ Q].
    cbn [fst] in Q. apply same_pairb_iff in Q. destruct p as [x y]. unfold same_pair in *. cbn in *. destruct Q as [[= -> ->]|[= -> ->]]; auto. }
  assert (M : forall p k, In (p, k) log -> In k L).
  { intros p k0 H0. destruct (JL _ _ H0) as (q & Q). pose proof (F (fst p) (snd p)) as F0. rewrite Q in F0. cbn in F0. symmetry in F0. now apply find_some in F0. }
  assert (U : forall p k q k', In (p, k) log -> In (q, k') log -> same_pair p q -> k = k').
  { intros [a b] k [c d] k' H1 H2 H3. destruct (JL _ _ H1) as (q1 & Q1). destruct (JL _ _ H2) as (q2 & Q2). cbn [fst snd] in *.
    rewrite (first_reg_same _ _ _ _ _ H3) in Q1. congruence. }
  split; [|exact S]. intros p k q k' H1 H2. split; [|now apply U]. split.
  - intros E0. assert (k = k') as <-.
    { clear - ND E0 M H1 H2. specialize (M _ _ H1) as M1. specialize (M _ _ H2) as M2. clear M H1 H2. induction L as [|x L IH]; [destruct M1|].
      cbn in ND. apply NoDup_cons_iff in ND as [N1 N2]. destruct M1 as [->|M1], M2 as [->|M2]; auto.
      - destruct N1. rewrite E0. now apply in_map.
      - destruct N1. rewrite <- E0. now apply in_map. }
    apply S in H1, H2. destruct p as [a b], q as [c d]. unfold same_pair in *. cbn in *. destruct H1 as [[= -> ->]|[= -> ->]], H2 as [[= -> ->]|[= -> ->]]; auto.
  - intros H3. now rewrite (U _ _ _ _ H1 H2 H3).
Qed.

(** A later registration changes no existing handler's functions; a new handler starts with the documented defaults. *)
Theorem C30_functions : forall os log s a b k s', N.of_nat (length os) < 1610612740 -> hrun h_init [] os = Some (log, s) ->
  (new_handler s a b = Some (k, s') ->
     (forall p k0, In (p, k0) log -> hd_fns s' (k_ptr k0) = hd_fns s (k_ptr k0)) /\
     (first_reg log a b = None -> hd_fns s' (k_ptr k) = mkFns FDefault FDefault FDefault FDefault 0)) /\
  (new_wildcard s a = Some (k, s') ->
     (forall p k0, In (p, k0) log -> hd_fns s' (k_ptr k0) = hd_fns s (k_ptr k0)) /\
     (first_reg log a WILDCARD = None -> hd_fns s' (k_ptr k) = mkFns FNothing FNothing FNothing FNothing 0)).
Proof.
  intros os log s a b k s' Hb E. destruct (hrun_ok os h_init [] j_init) as (log1 & s1 & E1 & Js & _ & Len & _); [cbn; lia|].
  rewrite E in E1. injection E1 as <- <-. cbn [length plus] in Len. split; intros R.
  - destruct (register_ok s log a b (mkFns FDefault FDefault FDefault FDefault 0) Js ltac:(lia)) as (k1 & s2 & R1 & _ & _ & K & F1 & F2 & _ & F3).
    unfold new_handler in R. rewrite R in R1. injection R1 as <- <-. split.
    + intros p k0 H. apply F1. apply F3 in H. lia.
    + intros N0. rewrite N0 in K. now subst k.
  - set (s0 := mkHSp (hd_set s) (hd_fns s) (hd_fresh s) true). assert (Js0 : J s0 log) by (destruct Js; constructor; auto).
    destruct (register_ok s0 log a WILDCARD (mkFns FNothing FNothing FNothing FNothing 0) Js0 ltac:(lia)) as (k1 & s2 & R1 & _ & _ & K & F1 & F2 & _ & F3).
    unfold new_wildcard in R. fold s0 in R. rewrite R in R1. injection R1 as <- <-. split.
    + intros p k0 H. rewrite F1; [reflexivity|]. apply F3 in H. cbn in *. lia.
    + intros N0. rewrite N0 in K. now subst k.
Qed.

(** The handler a touching pair gets, for shapes in either order: the registered one, with Shapes() in the registered order;
    else the default one.  The wildcard handlers belong to the types of the first and the second shape of Shapes(). *)
Theorem C30_lookup : forall os log s, N.of_nat (length os) < 1610612741 -> hrun h_init [] os = Some (log, s) ->
  forall (ty : nat -> N) sa sb oa ob, exists arb, update_handlers s sa sb (ty sa) (ty sb) oa ob = Some arb /\
  let '(x, y) := shapes arb in
  ((x, y) = (sa, sb) \/ (x, y) = (sb, sa)) /\
  match first_reg log (ty sa) (ty sb) with
  | Some (p, k) => ha_handler arb = HReg k /\ (fst p <> WILDCARD -> p = (ty x, ty y))
  | None => ha_handler arb = (if has_wild os then HDefault else HDoNothing) /\ (x, y) = (sa, sb)
  end /\
  (first_reg log (ty sa) (ty sb) <> None \/ has_wild os = true -> ha_ha arb = Some (wild_of log (ty x)) /\ ha_hb arb = Some (wild_of log (ty y))).
Proof.
  intros os log s Hb E ty sa sb oa ob. destruct (hrun_ok os h_init [] j_init) as (log1 & s1 & E1 & Js & W & _); [exact Hb|].
  rewrite E in E1. injection E1 as <- <-. cbn [hd_wild h_init orb] in W.
  unfold update_handlers. rewrite (lookup_ok s log _ _ _ Js). unfold default_handler, is_default. rewrite W.
  set (R := first_reg log (ty sa) (ty sb)). assert (HR : R = first_reg log (ty sa) (ty sb)) by reflexivity. destruct R as [[p k]|].
  - cbn [hdl_type_a negb orb]. pose proof (j_types _ _ Js _ _ _ _ (eq_sym HR)) as ->. cbn [fst].
    assert (S : same_pair (k_a k, k_b k) (ty sa, ty sb)). { symmetry in HR. unfold first_reg in HR. apply find_some in HR as [_ HR]. now apply same_pairb_iff. }
    destruct (N.eqb_spec (ty sa) (k_a k)) as [Ea|Ea]; cbn [negb andb].
    + rewrite !(lookup_ok s log _ _ _ Js). eexists. split; [reflexivity|]. unfold shapes. cbn [ha_swapped ha_a ha_b ha_handler ha_ha ha_hb].
      split; [now left|]. split; [|intros _; split; reflexivity]. split; [reflexivity|]. intros _. unfold same_pair in S. cbn in S. destruct S as [S|S]; injection S; intros; congruence.
    + destruct (N.eqb_spec (k_a k) WILDCARD) as [Ew|Ew]; cbn [negb].
      * rewrite !(lookup_ok s log _ _ _ Js). eexists. split; [reflexivity|]. unfold shapes. cbn [ha_swapped ha_a ha_b ha_handler ha_ha ha_hb].
        split; [now left|]. split; [|intros _; split; reflexivity]. split; [reflexivity|]. tauto.
      * rewrite !(lookup_ok s log _ _ _ Js). eexists. split; [reflexivity|]. unfold shapes. cbn [ha_swapped ha_a ha_b ha_handler ha_ha ha_hb].
        split; [now right|]. split; [|intros _; split; reflexivity]. split; [reflexivity|]. intros _. unfold same_pair in S. cbn in S. destruct S as [S|S]; injection S; intros; congruence.
  - destruct (has_wild os) eqn:HW; cbn [hdl_type_a negb orb].
    + rewrite N.eqb_refl, andb_false_r. cbn [negb]. rewrite !(lookup_ok s log _ _ _ Js). eexists. split; [reflexivity|]. unfold shapes. cbn [ha_swapped ha_a ha_b ha_handler ha_ha ha_hb].
      split; [now left|]. split; [split; reflexivity|]. intros _; split; reflexivity.
    + rewrite N.eqb_refl, andb_false_r. cbn [negb]. eexists. split; [reflexivity|]. unfold shapes. cbn [ha_swapped ha_a ha_b ha_handler ha_ha ha_hb].
      split; [now left|]. split; [split; reflexivity|]. intros [H|H]; [congruence|discriminate].
Qed.
(** What a phase calls: a user's function is called once, with Shapes() as above; without any handler nothing is called and
    the pair collides. *)
Theorem C30_calls : forall s ans fuel ph arb,
  (forall id, fn_of ph (hdl_fns s (ha_handler arb)) = FUser id -> exists d,
     run_phase s ans fuel ph arb = Some (ans [] (mkCall id ph (shapes arb) d), [mkCall id ph (shapes arb) d])) /\
  (ha_handler arb = HDoNothing -> run_phase s ans fuel ph arb = Some (true, [])).
Proof.
  intros s ans fuel ph arb. unfold run_phase. split.
  - intros id E. eexists. now rewrite (run_fn_user s ans fuel ph arb _ _ [] id E).
  - intros E. apply run_fn_nothing. rewrite E. now destruct ph.
Qed.

(** ** C31 *)
(** Asking one wildcard handler: nothing, or one call of the user's function. *)
Definition ask (s : HSpace) (ans : list Call -> Call -> bool) (ph : Phase) (sh : nat * nat) (h : Hdl) (tr : list Call) : bool * list Call :=
  match fn_of ph (hdl_fns s h) with
  | FUser id => let c := mkCall id ph sh (DUser (f_data (hdl_fns s h))) in (ans tr c, tr ++ [c])
  | _ => (true, tr)
  end.
Lemma run_fn_ask s ans fuel ph arb h tr : fn_of ph (hdl_fns s h) <> FDefault ->
  run_fn s ans fuel ph arb h (DUser (f_data (hdl_fns s h))) tr = Some (ask s ans ph (shapes arb) h tr).
Proof.
  intros H. unfold ask. destruct (fn_of ph (hdl_fns s h)) eqn:E; [congruence|now apply run_fn_nothing|now apply run_fn_user].
Qed.
Lemma shapes_toggled arb : shapes (toggled arb) = (snd (shapes arb), fst (shapes arb)).
Proof. unfold shapes, toggled. cbn. now destruct (ha_swapped arb). Qed.
(** A pair whose handler has the default functions asks the wildcard handler of the first shape's type, with that shape first,
    then the one of the second shape's type with the second shape first.  Begin and PreSolve: the second is asked only if the
    first agreed, and the pair collides when both agree.  PostSolve and Separate: both are called. *)
Theorem C31_wildcards : forall s ans fuel ph arb ha hb,
  fn_of ph (hdl_fns s (ha_handler arb)) = FDefault -> ha_ha arb = Some ha -> ha_hb arb = Some hb ->
  fn_of ph (hdl_fns s ha) <> FDefault -> fn_of ph (hdl_fns s hb) <> FDefault ->
  let '(x, y) := shapes arb in
  let '(ra, ta) := ask s ans ph (x, y) ha [] in
  let '(rb, tb) := ask s ans ph (y, x) hb ta in
  exists r, run_phase s ans (S fuel) ph arb = Some r /\
  match ph with
  | PBegin | PPreSolve => r = if ra then (rb, tb) else (false, ta)
  | PPostSolve | PSeparate => snd r = tb
  end.
Proof.
  intros s ans fuel ph arb ha hb E Ea Eb Na Nb. destruct (shapes arb) as [x y] eqn:Esh.
  destruct (ask s ans ph (x, y) ha []) as [ra ta] eqn:A. destruct (ask s ans ph (y, x) hb ta) as [rb tb] eqn:B.
  unfold run_phase. cbn [run_fn]. rewrite E, Ea, Eb, (run_fn_ask s ans fuel ph arb ha [] Na), Esh, A.
  assert (R : run_fn s ans fuel ph (toggled arb) hb (DUser (f_data (hdl_fns s hb))) ta = Some (rb, tb)).
  { rewrite (run_fn_ask s ans fuel ph (toggled arb) hb ta Nb), shapes_toggled, Esh. cbn [fst snd]. now rewrite B. }
  destruct ph, ra; try rewrite R; eexists; split; reflexivity.
Qed.

(** ** C32 *)
(** Begin, PreSolve and Separate functions of the pair's handler, and wildcard functions called through the default ones in every
    phase (see [ask] in C31), get the handler's UserData. *)
Theorem C32_user_data : forall s ans fuel ph arb id, ph <> PPostSolve -> fn_of ph (hdl_fns s (ha_handler arb)) = FUser id ->
  exists r, run_phase s ans fuel ph arb = Some (r, [mkCall id ph (shapes arb) (DUser (f_data (hdl_fns s (ha_handler arb))))]).
Proof.
  intros s ans fuel ph arb id Hp E. unfold run_phase. rewrite (run_fn_user s ans fuel ph arb _ _ [] id E). cbn [app]. destruct ph; try congruence; eexists; reflexivity.
Qed.

(** ** C33 *)
Theorem C33_reject_symmetric : forall a b, reject a b = reject b a.
Proof.
  intros a b. unfold reject. destruct (N.eqb_spec (fl_group a) (fl_group b)) as [E|E].
  - rewrite <- E, N.eqb_refl, <- !orb_assoc. f_equal. apply orb_comm.
  - destruct (N.eqb_spec (fl_group b) (fl_group a)); [congruence|]. rewrite !andb_false_r. cbn [orb]. apply orb_comm.
Qed.
(** Rejected exactly when the groups are equal and not zero, or one's categories share no bit with the other's mask. *)
Theorem C33_reject_meaning : forall a b, reject a b = true <->
  (fl_group a <> 0 /\ fl_group a = fl_group b) \/
  (forall i, N.testbit (fl_cat a) i = true -> N.testbit (fl_mask b) i = false) \/
  (forall i, N.testbit (fl_cat b) i = true -> N.testbit (fl_mask a) i = false).
Proof.
  intros a b. unfold reject.
  assert (L : forall x y, N.land x y = 0 <-> forall i, N.testbit x i = true -> N.testbit y i = false).
  { intros x y. split.
    - intros H i Hi. pose proof (N.land_spec x y i) as S. rewrite H, N.bits_0, Hi in S. now destruct (N.testbit y i).
    - intros H. apply N.bits_inj_0. intros i. rewrite N.land_spec. destruct (N.testbit x i) eqn:E; auto. now rewrite (H i E). }
  rewrite !orb_true_iff, andb_true_iff, negb_true_iff, N.eqb_neq, !N.eqb_eq, !L. tauto.
Qed.
Example C33_nonvacuous : reject (mkFilter 1 1 (2^64-1)) (mkFilter 1 1 (2^64-1)) = true /\ reject (mkFilter 1 1 (2^64-1)) (mkFilter 2 1 (2^64-1)) = false /\ reject (mkFilter 0 4 3) (mkFilter 0 3 3) = true.
Proof. repeat split. Qed.

(** ** An example space: handlers for (1,2), wildcards for 3 and 4, user functions *)
Definition uf (n : nat) (d : nat) : Fns := mkFns (FUser n) (FUser n) (FUser n) (FUser n) d.
Definition ex_ops : list hreg := [RNew 1 2; RAssign 0 (uf 10 100); RNew 2 1; RWild 3; RAssign 2 (uf 30 300); RWild 4; RAssign 3 (uf 40 400)].
Definition ex_run := hrun h_init [] ex_ops.
Definition get {A} (d : A) (o : option A) : A := match o with Some x => x | None => d end.
Definition ex_space : HSpace := snd (get ([], h_init) ex_run).
Definition ex_arb (ta tb : N) : HArb := get (mkHArb 0 0 HDoNothing false None None) (update_handlers ex_space 7 8 ta tb None None).
Example C30_nonvacuous : map snd (fst (get ([], h_init) ex_run)) = [mkKey 0 1 2; mkKey 0 1 2; mkKey 2 3 WILDCARD; mkKey 3 4 WILDCARD] /\
  ha_handler (ex_arb 2 1) = HReg (mkKey 0 1 2) /\ shapes (ex_arb 2 1) = (8, 7)%nat /\ shapes (ex_arb 1 2) = (7, 8)%nat /\
  ha_handler (ex_arb 4 3) = HDefault /\ ha_ha (ex_arb 4 3) = Some (HReg (mkKey 3 4 WILDCARD)) /\ ha_hb (ex_arb 4 3) = Some (HReg (mkKey 2 3 WILDCARD)).
Proof. repeat split; vm_compute; reflexivity. Qed.
Example C31_nonvacuous : run_phase ex_space (fun _ _ => true) 1 PBegin (ex_arb 4 3) =
    Some (true, [mkCall 40 PBegin (7, 8)%nat (DUser 400); mkCall 30 PBegin (8, 7)%nat (DUser 300)]) /\
  run_phase ex_space (fun _ _ => false) 1 PSeparate (ex_arb 4 3) =
    Some (false, [mkCall 40 PSeparate (7, 8)%nat (DUser 400); mkCall 30 PSeparate (8, 7)%nat (DUser 300)]).
Proof. split; vm_compute; reflexivity. Qed.
Example C32_nonvacuous : run_phase ex_space (fun _ _ => true) 0 PBegin (ex_arb 2 1) = Some (true, [mkCall 10 PBegin (8, 7)%nat (DUser 100)]).
Proof. vm_compute. reflexivity. Qed.

(** ** C69: both wildcard begin functions are NOT always called *)
Theorem C69_both_begin_called_refuted : exists ans, run_phase ex_space ans 1 PBegin (ex_arb 4 3) = Some (false, [mkCall 40 PBegin (7, 8)%nat (DUser 400)]).
Proof. exists (fun _ _ => false). vm_compute. reflexivity. Qed.

(** ** C70: a handler registered with NewCollisionHandler(t, WILDCARD_COLLISION_TYPE) recurses for ever at the first contact *)
Definition rec_ops : list hreg := [RNew 3 WILDCARD; RWild 4].
Definition rec_space : HSpace := snd (get ([], h_init) (hrun h_init [] rec_ops)).
Definition rec_arb : HArb := get (mkHArb 0 0 HDoNothing false None None) (update_handlers rec_space 7 8 3 5 None None).
Theorem C70_wildcard_as_type_ends_refuted : forall fuel ans, run_phase rec_space ans fuel PBegin rec_arb = None.
Proof.
  intros fuel ans. unfold run_phase.
  assert (A : ha_ha rec_arb = Some (HReg (mkKey 0 3 WILDCARD))) by (vm_compute; reflexivity).
  assert (B : ha_hb rec_arb = Some HDoNothing) by (vm_compute; reflexivity).
  assert (H : ha_handler rec_arb = HDefault) by (vm_compute; reflexivity).
  assert (F : f_begin (hdl_fns rec_space (HReg (mkKey 0 3 WILDCARD))) = FDefault) by (vm_compute; reflexivity).
  assert (G : forall fuel d tr, run_fn rec_space ans fuel PBegin rec_arb (HReg (mkKey 0 3 WILDCARD)) d tr = None).
  { induction fuel0 as [|n IH]; intros d tr; cbn [run_fn fn_of]; rewrite F; [reflexivity|]. now rewrite A, B, IH. }
  rewrite H. destruct fuel as [|fuel]; [reflexivity|]. cbn [run_fn fn_of hdl_fns f_begin]. now rewrite A, B, G.
Qed.

(** ** C71: PostSolve functions do NOT receive the UserData *)
Theorem C71_post_solve_data_refuted : forall s ans fuel arb id, f_post (hdl_fns s (ha_handler arb)) = FUser id ->
  exists r c, run_phase s ans fuel PPostSolve arb = Some (r, [c]) /\ forall d, c_data c <> DUser d.
Proof.
  intros s ans fuel arb id E. unfold run_phase. rewrite (run_fn_user s ans fuel PPostSolve arb _ _ [] id E). do 2 eexists. split; [reflexivity|]. cbn. discriminate.
Qed.
Example C71_witness : run_phase ex_space (fun _ _ => true) 0 PPostSolve (ex_arb 2 1) = Some (true, [mkCall 10 PPostSolve (8, 7)%nat (DHandler (HReg (mkKey 0 1 2)))]).
Proof. vm_compute. reflexivity. Qed.

Print Assumptions C30_one_handler_per_pair.
Print Assumptions C30_functions.
Print Assumptions C30_lookup.
Print Assumptions C31_wildcards.
Print Assumptions C32_user_data.
Print Assumptions C33_reject_meaning.
Print Assumptions C58_hash_pair_range.
Print Assumptions C70_wildcard_as_type_ends_refuted.
