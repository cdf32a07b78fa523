(** Properties C28, C75: post-step callbacks.  [history prog l] is the state after the calls [l] on a new space, where [prog c] are the
    calls that callback [c] makes when it runs.  The n-th call of AddPostStepCallback is registration n. *)
From Coq Require Import List ZArith Bool Arith Lia.
From Verif.Model Require Import PostStep.
From Verif.Proofs Require Import PostStepPf.
Import ListNotations.

(** registrations accepted outside of any running post-step callback, and registrations whose callback has run, in the order of the trace *)
Definition accepted (tr : list PEv) : list nat := flat_map (fun e => match e with Accepted n true => [n] | _ => [] end) tr.
Definition ran (tr : list PEv) : list nat := flat_map (fun e => match e with Ran n => [n] | _ => [] end) tr.
Lemma accepted_eq tr : accepted tr = accs true tr.
Proof. unfold accepted, accs. apply flat_map_ext. intros [n []| |]; reflexivity. Qed.

(** ** C28 *)
(** every history runs; the callbacks that have run, followed by those still queued, are the accepted ones: each once, in order *)
Theorem C28_once_in_order : forall prog l, exists s, history prog l = Some s /\ accepted (ps_tr s) = ran (ps_tr s) ++ ps_q s /\ NoDup (accepted (ps_tr s)).
Proof. intros prog l. destruct (history_ok prog l _ (idle_init prog)) as (s & E & I). exists s. rewrite accepted_eq. split; [exact E|]. split; apply I. Qed.
(** the release of the outermost lock, asked to run the callbacks, runs all that are queued; nothing else runs any *)
Theorem C28_run_when_unlocked : forall prog l s a s', history prog l = Some s -> history prog (l ++ [a]) = Some s' ->
  if match a with UnlockSpace true => Z.eqb (ps_locked s) 1 | _ => false end then ran (ps_tr s') = ran (ps_tr s) ++ ps_q s /\ ps_q s' = []
  else ran (ps_tr s') = ran (ps_tr s).
Proof.
  intros prog l s a s' E E'. destruct (history_ok prog l _ (idle_init prog)) as (s1 & E1 & I1). unfold history in E. rewrite E1 in E. injection E as ->.
  assert (SP : forall f l m s, seq f s (l ++ m) = match seq f s l with Some s => seq f s m | None => None end). { clear. intros f l m. induction l as [|b l IH]; intros s; cbn [app seq]; auto. destruct (f s b); auto. }
  unfold history in E'. rewrite SP, E1 in E'. cbn [seq] in E'. destruct (act_ok prog 0 s a I1) as (s2 & E2 & I2 & Q). rewrite E2 in E'. injection E' as ->. change (rans (ps_tr s')) with (ran (ps_tr s')) in Q. change (rans (ps_tr s)) with (ran (ps_tr s)) in Q.
  destruct a as [k cb| |[]]; cbn [andb] in Q.
  - destruct Q as ((e & -> & De) & _). change (rans (ps_tr s ++ [e]) = rans (ps_tr s)). rewrite rans_app. destruct De; subst e; cbn; apply app_nil_r.
  - now destruct Q as [-> _].
  - destruct (ps_locked s =? 1)%Z; [tauto|]. now destruct Q as [-> _].
  - now destruct Q as [-> _].
Qed.
(** a registration is accepted unless its key is that of a queued one, so queued keys differ *)
Theorem C28_key_once : forall prog l s k cb s', history prog l = Some s -> history prog (l ++ [Add k cb]) = Some s' ->
  (ps_q s' = ps_q s ++ [ps_n s] /\ In (ps_n s) (accepted (ps_tr s')) /\ ps_key (ps_ent s' (ps_n s)) = k <-> k = None \/ forall n, In n (ps_q s) -> ps_key (ps_ent s n) <> k) /\
  (forall n m key, In n (ps_q s) -> In m (ps_q s) -> ps_key (ps_ent s n) = Some key -> ps_key (ps_ent s m) = Some key -> n = m).
Proof.
  intros prog l s k cb s' E E'. destruct (history_ok prog l _ (idle_init prog)) as (s1 & E1 & I1). unfold history in E. rewrite E1 in E. injection E as ->.
  assert (SP : forall f l m s, seq f s (l ++ m) = match seq f s l with Some s => seq f s m | None => None end). { clear. intros f l m. induction l as [|b l IH]; intros s; cbn [app seq]; auto. destruct (f s b); auto. }
  unfold history in E'. rewrite SP, E1 in E'. cbn [seq] in E'. destruct (act_ok prog 0 s (Add k cb) I1) as (s2 & E2 & I2 & Q). rewrite E2 in E'. injection E' as ->.
  split.
  2:{ intros n m key Hn Hm K1 K2. apply (p_keys _ I1 n m Hn Hm); congruence. }
  destruct Q as ((e & Te & De) & C & _ & K). rewrite accepted_eq.
  assert (C' : k = None \/ (forall n, In n (ps_q s) -> ps_key (ps_ent s n) <> k) <-> ps_tr s' = ps_tr s ++ [Accepted (ps_n s) true]).
  { rewrite C. split; (intros [D|D]; [auto|right]); [intros (n & H1 & H2); exact (D n H1 H2)|intros n H1 H2; apply D; eauto]. }
  rewrite C'. split.
  - intros (_ & A & _). destruct De as [-> | ->]; auto. exfalso. rewrite Te, accs_app in A. cbn in A. rewrite app_nil_r in A. apply (p_lt _ I1) in A. lia.
  - intros A. split; [|split; [rewrite A, accs_app; apply in_or_app; cbn; auto|auto]]. cbn [act] in E2. injection E2 as <-. unfold add_cb in *. destruct (match k with None => true | _ => _ end); cbn in *; auto. apply app_inv_head in A. discriminate.
Qed.
(** three registrations, one refused for its key; nested locks; the first callback locks, unlocks and registers *)
Example C28_nonvacuous : let prog c := match c with 7 => [LockSpace; UnlockSpace true; Add None (Some 8)] | _ => [] end in
  let l := [LockSpace; Add (Some 1) (Some 7); Add (Some 1) (Some 8); LockSpace; UnlockSpace true; Add (Some 2) None; UnlockSpace true] in
  exists s, history prog l = Some s /\ ps_tr s = [Accepted 0 true; Refused 1 true; Accepted 2 true; Ran 0; Accepted 3 false; Ran 2] /\ accepted (ps_tr s) = [0; 2] /\ ps_q s = [].
Proof. cbv zeta. eexists. repeat split; reflexivity. Qed.

(** ** C75: false.  A callback registered by a running post-step callback is accepted but never runs *)
Theorem C75_nested_registration_dropped_refuted :
  (forall prog l s n, history prog l = Some s -> In (Accepted n false) (ps_tr s) -> ~ In (Ran n) (ps_tr s)) /\
  exists prog l s, history prog l = Some s /\ In (Accepted 1 false) (ps_tr s) /\ ps_q s = [].
Proof.
  split.
  - intros prog l s n E A R. destruct (history_ok prog l _ (idle_init prog)) as (s1 & E1 & I). unfold history in E. rewrite E1 in E. injection E as ->.
    assert (A' : In n (accs false (ps_tr s))) by (unfold accs; apply in_flat_map; exists (Accepted n false); cbn; auto).
    assert (R' : In n (rans (ps_tr s))) by (unfold rans; apply in_flat_map; exists (Ran n); cbn; auto).
    apply (p_sep _ I n A'). rewrite (p_all _ I). apply in_or_app. auto.
  - exists (fun c => match c with 7 => [Add None (Some 8)] | _ => [] end), [LockSpace; Add None (Some 7); UnlockSpace true]. eexists. split; [reflexivity|]. cbn. auto 6.
Qed.
(** and a callback that registers its own key again is refused although it is no longer waiting *)
Example C75_own_key : exists s, history (fun _ => [Add (Some 1) (Some 7)]) [LockSpace; Add (Some 1) (Some 7); UnlockSpace true] = Some s /\ ps_tr s = [Accepted 0 true; Ran 0; Refused 1 false].
Proof. eexists. split; reflexivity. Qed.
Print Assumptions C28_once_in_order. Print Assumptions C28_run_when_unlocked. Print Assumptions C28_key_once. Print Assumptions C75_nested_registration_dropped_refuted.
