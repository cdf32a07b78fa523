(** The bookkeeping of a Space: which list or index every body, shape, arbiter and constraint is in, sleeping and waking,
    contact callbacks, and the phases of Step (space.go, body.go, hashset_arbiter.go).

    Bodies, shapes, arbiters and constraints are numbers (addresses); their fields are in four memories.
    Simplifications:
    - Slices are lists, a body's intrusive list of arbiters (constraints) is a list (Model/Threads.v has the pointers);
      pushing an arbiter that is already in the list is [None].
    - A spatial index is the list of the shapes in it; inserting a shape twice or removing one that is not there is [None].
    - cachedArbiters is the list of its arbiters, searched by the unordered pair of shapes (HashSet is C09, the pair hash C58).
    - Positions, velocities, contacts and impulses are not here (Model/Body.v, Model/Solver.v, Model/Contacts.v); their influence is an
      argument of a step: which bodies move fast, which shapes touch, what the user's callbacks answer.  Callbacks do not call
      back into the space (what happens if they do is C26).
    - The contact that the narrow phase reports, the filters and the box test of QueryReject are part of "which shapes touch".
    - [None]: a panic, a loop that does not end, or one of the corruptions above. *)
From Coq Require Import List Arith NArith Bool.
From Verif.Model Require Import HashSet.
Import ListNotations.

(** Idle times: a zero, an addition and a comparison are all the code uses *)
Class Time (T : Type) := { t0 : T; tadd : T -> T -> T; tltb : T -> T -> bool }.

(** body.go:226-234 *)
Inductive Kind := Dyn | Kin | Stat.
Definition kind_eqb (x y : Kind) : bool := match x, y with Dyn, Dyn | Kin, Kin | Stat, Stat => true | _, _ => false end.
(** everything.go: CP_ARBITER_STATE_* *)
Inductive AState := AFirst | ANormal | AIgnore | ACached | AInvalid.
Definition astate_eqb (x y : AState) : bool :=
  match x, y with AFirst, AFirst | ANormal, ANormal | AIgnore, AIgnore | ACached, ACached | AInvalid, AInvalid => true | _, _ => false end.
(** calls of a pair's collision callbacks, the booleans are the answers; [EStep] marks the beginning of a step *)
Inductive Ev := EBegin (a b : nat) (ok : bool) | EPre (a b : nat) (ok ignore : bool) | EPost (a b : nat) | ESep (a b : nat) | EStep.
(** shape.go: the fields used here *)
Record SShape := mkSS { ss_body : nat; ss_in : bool; ss_sensor : bool }.
(** constraint.go:15-29 *)
Record SCon := mkSC { sc_a : nat; sc_b : nat; sc_in : bool; sc_collide : bool }.
(** arbiter.go:15-37 *)
Record SArb := mkSA { sa_a : nat; sa_b : nat; sa_ba : nat; sa_bb : nat; sa_state : AState; sa_stamp : N }.
Definition a_state (a : SArb) (x : AState) : SArb := mkSA (sa_a a) (sa_b a) (sa_ba a) (sa_bb a) x (sa_stamp a).
Definition a_stamp (a : SArb) (x : N) : SArb := mkSA (sa_a a) (sa_b a) (sa_ba a) (sa_bb a) (sa_state a) x.

Section Space.
Context {T : Type} `{Time T}.
(** body.go:13-66: the type is GetType(), [sb_in] is "body.space is this space" *)
Record SBody := mkSB { sb_kind : Kind; sb_idle : T; sb_root : option nat; sb_next : option nat; sb_in : bool; sb_shapes : list nat; sb_arbs : list nat; sb_cons : list nat }.
Definition b_kind (b : SBody) (x : Kind) : SBody := mkSB x (sb_idle b) (sb_root b) (sb_next b) (sb_in b) (sb_shapes b) (sb_arbs b) (sb_cons b).
Definition b_idle (b : SBody) (x : T) : SBody := mkSB (sb_kind b) x (sb_root b) (sb_next b) (sb_in b) (sb_shapes b) (sb_arbs b) (sb_cons b).
Definition b_root (b : SBody) (x : option nat) : SBody := mkSB (sb_kind b) (sb_idle b) x (sb_next b) (sb_in b) (sb_shapes b) (sb_arbs b) (sb_cons b).
Definition b_next (b : SBody) (x : option nat) : SBody := mkSB (sb_kind b) (sb_idle b) (sb_root b) x (sb_in b) (sb_shapes b) (sb_arbs b) (sb_cons b).
Definition b_in (b : SBody) (x : bool) : SBody := mkSB (sb_kind b) (sb_idle b) (sb_root b) (sb_next b) x (sb_shapes b) (sb_arbs b) (sb_cons b).
Definition b_shapes (b : SBody) (x : list nat) : SBody := mkSB (sb_kind b) (sb_idle b) (sb_root b) (sb_next b) (sb_in b) x (sb_arbs b) (sb_cons b).
Definition b_arbs (b : SBody) (x : list nat) : SBody := mkSB (sb_kind b) (sb_idle b) (sb_root b) (sb_next b) (sb_in b) (sb_shapes b) x (sb_cons b).
Definition b_cons (b : SBody) (x : list nat) : SBody := mkSB (sb_kind b) (sb_idle b) (sb_root b) (sb_next b) (sb_in b) (sb_shapes b) (sb_arbs b) x.
(** space.go:15-72.  [sp_nb] bounds the addresses of bodies, [sp_na] those of arbiters; [sp_sb] is StaticBody; [sp_log] is the trace. *)
Record Space := mkSp {
  sp_b : nat -> SBody;
  sp_s : nat -> SShape;
  sp_a : nat -> SArb;
  sp_c : nat -> SCon;
  sp_dyn : list nat;
  sp_stat : list nat;
  sp_sleep : list nat;
  sp_roused : list nat;
  sp_didx : list nat;
  sp_sidx : list nat;
  sp_arbs : list nat;
  sp_cache : list nat;
  sp_cons : list nat;
  sp_pool : list nat;
  sp_locked : nat;
  sp_stamp : N;
  sp_log : list Ev;
  sp_nb : nat;
  sp_na : nat;
  sp_sb : nat }.
Definition set_b (s : Space) (x : nat -> SBody) : Space := mkSp x (sp_s s) (sp_a s) (sp_c s) (sp_dyn s) (sp_stat s) (sp_sleep s) (sp_roused s) (sp_didx s) (sp_sidx s) (sp_arbs s) (sp_cache s) (sp_cons s) (sp_pool s) (sp_locked s) (sp_stamp s) (sp_log s) (sp_nb s) (sp_na s) (sp_sb s).
Definition set_s (s : Space) (x : nat -> SShape) : Space := mkSp (sp_b s) x (sp_a s) (sp_c s) (sp_dyn s) (sp_stat s) (sp_sleep s) (sp_roused s) (sp_didx s) (sp_sidx s) (sp_arbs s) (sp_cache s) (sp_cons s) (sp_pool s) (sp_locked s) (sp_stamp s) (sp_log s) (sp_nb s) (sp_na s) (sp_sb s).
Definition set_a (s : Space) (x : nat -> SArb) : Space := mkSp (sp_b s) (sp_s s) x (sp_c s) (sp_dyn s) (sp_stat s) (sp_sleep s) (sp_roused s) (sp_didx s) (sp_sidx s) (sp_arbs s) (sp_cache s) (sp_cons s) (sp_pool s) (sp_locked s) (sp_stamp s) (sp_log s) (sp_nb s) (sp_na s) (sp_sb s).
Definition set_c (s : Space) (x : nat -> SCon) : Space := mkSp (sp_b s) (sp_s s) (sp_a s) x (sp_dyn s) (sp_stat s) (sp_sleep s) (sp_roused s) (sp_didx s) (sp_sidx s) (sp_arbs s) (sp_cache s) (sp_cons s) (sp_pool s) (sp_locked s) (sp_stamp s) (sp_log s) (sp_nb s) (sp_na s) (sp_sb s).
Definition set_dyn (s : Space) (x : list nat) : Space := mkSp (sp_b s) (sp_s s) (sp_a s) (sp_c s) x (sp_stat s) (sp_sleep s) (sp_roused s) (sp_didx s) (sp_sidx s) (sp_arbs s) (sp_cache s) (sp_cons s) (sp_pool s) (sp_locked s) (sp_stamp s) (sp_log s) (sp_nb s) (sp_na s) (sp_sb s).
Definition set_stat (s : Space) (x : list nat) : Space := mkSp (sp_b s) (sp_s s) (sp_a s) (sp_c s) (sp_dyn s) x (sp_sleep s) (sp_roused s) (sp_didx s) (sp_sidx s) (sp_arbs s) (sp_cache s) (sp_cons s) (sp_pool s) (sp_locked s) (sp_stamp s) (sp_log s) (sp_nb s) (sp_na s) (sp_sb s).
Definition set_sleep (s : Space) (x : list nat) : Space := mkSp (sp_b s) (sp_s s) (sp_a s) (sp_c s) (sp_dyn s) (sp_stat s) x (sp_roused s) (sp_didx s) (sp_sidx s) (sp_arbs s) (sp_cache s) (sp_cons s) (sp_pool s) (sp_locked s) (sp_stamp s) (sp_log s) (sp_nb s) (sp_na s) (sp_sb s).
Definition set_roused (s : Space) (x : list nat) : Space := mkSp (sp_b s) (sp_s s) (sp_a s) (sp_c s) (sp_dyn s) (sp_stat s) (sp_sleep s) x (sp_didx s) (sp_sidx s) (sp_arbs s) (sp_cache s) (sp_cons s) (sp_pool s) (sp_locked s) (sp_stamp s) (sp_log s) (sp_nb s) (sp_na s) (sp_sb s).
Definition set_didx (s : Space) (x : list nat) : Space := mkSp (sp_b s) (sp_s s) (sp_a s) (sp_c s) (sp_dyn s) (sp_stat s) (sp_sleep s) (sp_roused s) x (sp_sidx s) (sp_arbs s) (sp_cache s) (sp_cons s) (sp_pool s) (sp_locked s) (sp_stamp s) (sp_log s) (sp_nb s) (sp_na s) (sp_sb s).
Definition set_sidx (s : Space) (x : list nat) : Space := mkSp (sp_b s) (sp_s s) (sp_a s) (sp_c s) (sp_dyn s) (sp_stat s) (sp_sleep s) (sp_roused s) (sp_didx s) x (sp_arbs s) (sp_cache s) (sp_cons s) (sp_pool s) (sp_locked s) (sp_stamp s) (sp_log s) (sp_nb s) (sp_na s) (sp_sb s).
Definition set_arbs (s : Space) (x : list nat) : Space := mkSp (sp_b s) (sp_s s) (sp_a s) (sp_c s) (sp_dyn s) (sp_stat s) (sp_sleep s) (sp_roused s) (sp_didx s) (sp_sidx s) x (sp_cache s) (sp_cons s) (sp_pool s) (sp_locked s) (sp_stamp s) (sp_log s) (sp_nb s) (sp_na s) (sp_sb s).
Definition set_cache (s : Space) (x : list nat) : Space := mkSp (sp_b s) (sp_s s) (sp_a s) (sp_c s) (sp_dyn s) (sp_stat s) (sp_sleep s) (sp_roused s) (sp_didx s) (sp_sidx s) (sp_arbs s) x (sp_cons s) (sp_pool s) (sp_locked s) (sp_stamp s) (sp_log s) (sp_nb s) (sp_na s) (sp_sb s).
Definition set_cons (s : Space) (x : list nat) : Space := mkSp (sp_b s) (sp_s s) (sp_a s) (sp_c s) (sp_dyn s) (sp_stat s) (sp_sleep s) (sp_roused s) (sp_didx s) (sp_sidx s) (sp_arbs s) (sp_cache s) x (sp_pool s) (sp_locked s) (sp_stamp s) (sp_log s) (sp_nb s) (sp_na s) (sp_sb s).
Definition set_pool (s : Space) (x : list nat) : Space := mkSp (sp_b s) (sp_s s) (sp_a s) (sp_c s) (sp_dyn s) (sp_stat s) (sp_sleep s) (sp_roused s) (sp_didx s) (sp_sidx s) (sp_arbs s) (sp_cache s) (sp_cons s) x (sp_locked s) (sp_stamp s) (sp_log s) (sp_nb s) (sp_na s) (sp_sb s).
Definition set_locked (s : Space) (x : nat) : Space := mkSp (sp_b s) (sp_s s) (sp_a s) (sp_c s) (sp_dyn s) (sp_stat s) (sp_sleep s) (sp_roused s) (sp_didx s) (sp_sidx s) (sp_arbs s) (sp_cache s) (sp_cons s) (sp_pool s) x (sp_stamp s) (sp_log s) (sp_nb s) (sp_na s) (sp_sb s).
Definition set_stamp (s : Space) (x : N) : Space := mkSp (sp_b s) (sp_s s) (sp_a s) (sp_c s) (sp_dyn s) (sp_stat s) (sp_sleep s) (sp_roused s) (sp_didx s) (sp_sidx s) (sp_arbs s) (sp_cache s) (sp_cons s) (sp_pool s) (sp_locked s) x (sp_log s) (sp_nb s) (sp_na s) (sp_sb s).
Definition set_log (s : Space) (x : list Ev) : Space := mkSp (sp_b s) (sp_s s) (sp_a s) (sp_c s) (sp_dyn s) (sp_stat s) (sp_sleep s) (sp_roused s) (sp_didx s) (sp_sidx s) (sp_arbs s) (sp_cache s) (sp_cons s) (sp_pool s) (sp_locked s) (sp_stamp s) x (sp_nb s) (sp_na s) (sp_sb s).
Definition set_nb (s : Space) (x : nat) : Space := mkSp (sp_b s) (sp_s s) (sp_a s) (sp_c s) (sp_dyn s) (sp_stat s) (sp_sleep s) (sp_roused s) (sp_didx s) (sp_sidx s) (sp_arbs s) (sp_cache s) (sp_cons s) (sp_pool s) (sp_locked s) (sp_stamp s) (sp_log s) x (sp_na s) (sp_sb s).
Definition set_na (s : Space) (x : nat) : Space := mkSp (sp_b s) (sp_s s) (sp_a s) (sp_c s) (sp_dyn s) (sp_stat s) (sp_sleep s) (sp_roused s) (sp_didx s) (sp_sidx s) (sp_arbs s) (sp_cache s) (sp_cons s) (sp_pool s) (sp_locked s) (sp_stamp s) (sp_log s) (sp_nb s) x (sp_sb s).

Notation "'let*' x := e 'in' k" := (match e with Some x => k | None => None end) (at level 200, x pattern, k at level 200).
Definition memb (x : nat) (l : list nat) : bool := existsb (Nat.eqb x) l.
(** removal of the first occurrence from a slice: append(l[:i], l[i+1:]...) *)
Fixpoint del (x : nat) (l : list nat) : list nat := match l with [] => [] | y :: l => if Nat.eqb x y then l else y :: del x l end.
(** removal by overwriting with the last element (space.go:832-836, body.go:555-559) *)
Fixpoint swap_del (x : nat) (l : list nat) : list nat :=
  match l with
  | [] => []
  | y :: l => if Nat.eqb x y then match rev l with [] => [] | z :: r => z :: rev r end else y :: swap_del x l
  end.

Definition bod (s : Space) (b : nat) : SBody := sp_b s b.
Definition kind (s : Space) (b : nat) : Kind := sb_kind (sp_b s b).
Definition upd_b (s : Space) (b : nat) (x : SBody) : Space := set_b s (upd (sp_b s) b x).
Definition upd_a (s : Space) (a : nat) (x : SArb) : Space := set_a s (upd (sp_a s) a x).
Definition is_dyn (s : Space) (b : nat) : bool := kind_eqb (kind s b) Dyn.
Definition is_stat (s : Space) (b : nat) : bool := kind_eqb (kind s b) Stat.
Definition is_kin (s : Space) (b : nat) : bool := kind_eqb (kind s b) Kin.
(** body.go:437-439 *)
Definition sleeping (s : Space) (b : nat) : bool := match sb_root (bod s b) with Some _ => true | None => false end.
Definition emit (s : Space) (e : Ev) : Space := set_log s (sp_log s ++ [e]).

(** spatial indexes *)
Definition idx_move_out (s : Space) (sh : nat) : option Space := (* static -> dynamic *)
  if memb sh (sp_sidx s) then
    let s := set_sidx s (del sh (sp_sidx s)) in
    if memb sh (sp_didx s) then None else Some (set_didx s (sp_didx s ++ [sh]))
  else None.
Definition idx_move_in (s : Space) (sh : nat) : option Space := (* dynamic -> static *)
  if memb sh (sp_didx s) then
    let s := set_didx s (del sh (sp_didx s)) in
    if memb sh (sp_sidx s) then None else Some (set_sidx s (sp_sidx s ++ [sh]))
  else None.
Fixpoint each (f : Space -> nat -> option Space) (s : Space) (l : list nat) : option Space :=
  match l with [] => Some s | x :: l => match f s x with Some s => each f s l | None => None end end.

(** arbiterSetEql (hashset_arbiter.go / space.go): the same two shapes in either order *)
Definition pair_eqb (a b c d : nat) : bool := (Nat.eqb a c && Nat.eqb b d) || (Nat.eqb a d && Nat.eqb b c).
Definition find_pair (s : Space) (a b : nat) : option nat := find (fun x => pair_eqb a b (sa_a (sp_a s x)) (sa_b (sp_a s x))) (sp_cache s).
(** the other body of an arbiter / a constraint *)
Definition arb_other (s : Space) (b x : nat) : nat := if Nat.eqb (sa_ba (sp_a s x)) b then sa_bb (sp_a s x) else sa_ba (sp_a s x).
Definition con_other (s : Space) (b c : nat) : nat := if Nat.eqb (sc_a (sp_c s c)) b then sc_b (sp_c s c) else sc_a (sp_c s c).

(** space.go:168-192: one arbiter of a body that wakes up.  [None] for a second entry in space.arbiters cannot arise here: the
    arbiter is appended unconditionally *)
Definition restore_arb (body : nat) (s : Space) (x : nat) : option Space :=
  let arb := sp_a s x in
  if Nat.eqb body (sa_ba arb) || is_stat s (sa_ba arb) then
    let s := match find_pair s (sa_a arb) (sa_b arb) with Some _ => s | None => set_cache s (sp_cache s ++ [x]) end in
    let s := upd_a s x (a_stamp arb (sp_stamp s)) in
    Some (set_arbs s (sp_arbs s ++ [x]))
  else Some s.
(** space.go:194-198 *)
Definition restore_con (body : nat) (s : Space) (c : nat) : option Space :=
  let con := sp_c s c in
  if Nat.eqb body (sc_a con) || is_stat s (sc_a con) then Some (set_cons s (sp_cons s ++ [c])) else Some s.
(** space.go:147-199 *)
Definition space_activate (s : Space) (body : nat) : option Space :=
  if negb (Nat.eqb (sp_locked s) 0) then
    Some (if memb body (sp_roused s) then s else set_roused s (sp_roused s ++ [body]))
  else
    let s := set_dyn s (sp_dyn s ++ [body]) in
    let* s := each idx_move_out s (sb_shapes (bod s body)) in
    let* s := each (restore_arb body) s (sb_arbs (bod s body)) in
    each (restore_con body) s (sb_cons (bod s body)).

(** space.go:823-840 *)
Definition uncache (s : Space) (x : nat) : option Space :=
  let arb := sp_a s x in
  let s := match find_pair s (sa_a arb) (sa_b arb) with Some y => set_cache s (del y (sp_cache s)) | None => s end in
  if memb x (sp_arbs s) then Some (set_arbs s (swap_del x (sp_arbs s))) else None.
(** space.go:220-231 *)
Definition drop_arb (body : nat) (s : Space) (x : nat) : option Space :=
  if Nat.eqb body (sa_ba (sp_a s x)) || is_stat s (sa_ba (sp_a s x)) then uncache s x else Some s.
(** space.go:233-243 *)
Definition drop_con (body : nat) (s : Space) (c : nat) : option Space :=
  if Nat.eqb body (sc_a (sp_c s c)) || is_stat s (sc_a (sp_c s c)) then Some (set_cons s (del c (sp_cons s))) else Some s.
(** space.go:204-244 *)
Definition deactivate (s : Space) (body : nat) : option Space :=
  let s := set_dyn s (del body (sp_dyn s)) in
  let* s := each idx_move_in s (sb_shapes (bod s body)) in
  let* s := each (drop_arb body) s (sb_arbs (bod s body)) in
  each (drop_con body) s (sb_cons (bod s body)).

(** the bodies of a component: following sleepingNext *)
Fixpoint members (fuel : nat) (s : Space) (b : option nat) : option (list nat) :=
  match b with
  | None => Some []
  | Some b => match fuel with O => None | S fuel => let* l := members fuel s (sb_next (bod s b)) in Some (b :: l) end
  end.
(** body.go:388-396: one body of the component *)
Definition wake_one (s : Space) (b : nat) : option Space :=
  space_activate (upd_b s b (b_next (b_root (b_idle (bod s b) t0) None) None)) b.
(** body.go:407-419 *)
Definition touch_idle (body : nat) (s : Space) (x : nat) : option Space :=
  let o := arb_other s body x in
  Some (if is_stat s o then s else upd_b s o (b_idle (bod s o) t0)).
(** body.go:375-420; a root that is set is a sleeping root (body.go:437 IsSleeping of the root: its own root is set) *)
Definition activate (s : Space) (b : nat) : option Space :=
  if negb (is_dyn s b) then Some s else
  let s := upd_b s b (b_idle (bod s b) t0) in
  let* s := match sb_root (bod s b) with
    | None => Some s
    | Some r =>
      if sleeping s r then
        let* l := members (sp_nb s) s (Some r) in
        let* s := each wake_one s l in
        Some (set_sleep s (del r (sp_sleep s)))
      else Some s
    end in
  each (touch_idle b) s (sb_arbs (bod s b)).
(** body.go:422-434; [filter]: nil or a shape *)
Definition activate_static (s : Space) (b : nat) (filter : option nat) : option Space :=
  each (fun s x =>
    let arb := sp_a s x in
    if match filter with None => true | Some sh => Nat.eqb sh (sa_a arb) || Nat.eqb sh (sa_b arb) end
    then activate s (arb_other s b x) else Some s) s (sb_arbs (bod s b)).

(** space.go:287-297 *)
Definition add_body (s : Space) (b : nat) : option Space :=
  let s := if is_stat s b then set_stat s (sp_stat s ++ [b]) else set_dyn s (sp_dyn s ++ [b]) in
  let s := upd_b s b (b_in (bod s b) true) in
  Some (set_nb s (Nat.max (sp_nb s) (S b))).
(** space.go:365-387 *)
Definition remove_body (s : Space) (b : nat) : option Space :=
  let* s := activate s b in
  let s := if is_stat s b then set_stat s (del b (sp_stat s)) else set_dyn s (del b (sp_dyn s)) in
  Some (upd_b s b (b_in (bod s b) false)).
(** space.go:260-285 *)
Definition add_shape (s : Space) (sh : nat) : option Space :=
  let body := ss_body (sp_s s sh) in
  let* s := if is_stat s body then Some s else activate s body in
  let s := upd_b s body (b_shapes (bod s body) (sb_shapes (bod s body) ++ [sh])) in
  let s := set_s s (upd (sp_s s) sh (mkSS body true (ss_sensor (sp_s s sh)))) in
  if is_stat s body then if memb sh (sp_sidx s) then None else Some (set_sidx s (sp_sidx s ++ [sh]))
  else if memb sh (sp_didx s) then None else Some (set_didx s (sp_didx s ++ [sh])).

(** arbiter.go:77-103: Unthread *)
Definition unthread (s : Space) (x : nat) : Space :=
  let arb := sp_a s x in
  let s := upd_b s (sa_ba arb) (b_arbs (bod s (sa_ba arb)) (del x (sb_arbs (bod s (sa_ba arb))))) in
  upd_b s (sa_bb arb) (b_arbs (bod s (sa_bb arb)) (del x (sb_arbs (bod s (sa_bb arb))))).
(** hashset_arbiter.go:34-59 (shape not nil); the cache entry goes with the filter *)
Definition filter_one (body sh : nat) (s : Space) (x : nat) : option Space :=
  let arb := sp_a s x in
  if (Nat.eqb body (sa_ba arb) && Nat.eqb sh (sa_a arb)) || (Nat.eqb body (sa_bb arb) && Nat.eqb sh (sa_b arb)) then
    let s := if negb (astate_eqb (sa_state arb) ACached) then emit (upd_a s x (a_state arb AInvalid)) (ESep (sa_a arb) (sa_b arb)) else s in
    let s := unthread s x in
    let s := set_arbs s (del x (sp_arbs s)) in
    let s := set_cache s (del x (sp_cache s)) in
    Some (set_pool s (x :: sp_pool s))
  else Some s.
(** space.go:342-363 with FilterArbiters (389-397; Lock/Unlock around it only matter to callbacks) *)
Definition remove_shape (s : Space) (sh : nat) : option Space :=
  let body := ss_body (sp_s s sh) in
  let* s := if is_stat s body then activate_static s body (Some sh) else activate s body in
  let s := upd_b s body (b_shapes (bod s body) (swap_del sh (sb_shapes (bod s body)))) in
  let* s := each (filter_one body sh) s (sp_cache s) in
  let* s := if is_stat s body then if memb sh (sp_sidx s) then Some (set_sidx s (del sh (sp_sidx s))) else None
            else if memb sh (sp_didx s) then Some (set_didx s (del sh (sp_didx s))) else None in
  Some (set_s s (upd (sp_s s) sh (mkSS body false (ss_sensor (sp_s s sh))))).
(** space.go:299-322 *)
Definition add_con (s : Space) (c : nat) : option Space :=
  let con := sp_c s c in
  let* s := activate s (sc_a con) in
  let* s := activate s (sc_b con) in
  let s := set_cons s (sp_cons s ++ [c]) in
  let s := upd_b s (sc_a con) (b_cons (bod s (sc_a con)) (c :: sb_cons (bod s (sc_a con)))) in
  let s := upd_b s (sc_b con) (b_cons (bod s (sc_b con)) (c :: sb_cons (bod s (sc_b con)))) in
  Some (set_c s (upd (sp_c s) c (mkSC (sc_a con) (sc_b con) true (sc_collide con)))).
(** body.go:548-550, 611-621: filterConstraints runs off the end of a list (nil dereference) if the constraint is not there *)
Definition body_remove_con (s : Space) (b c : nat) : option Space :=
  if memb c (sb_cons (bod s b)) then Some (upd_b s b (b_cons (bod s b) (del c (sb_cons (bod s b))))) else None.
(** space.go:324-340 *)
Definition remove_con (s : Space) (c : nat) : option Space :=
  let con := sp_c s c in
  let* s := activate s (sc_a con) in
  let* s := activate s (sc_b con) in
  let s := set_cons s (del c (sp_cons s)) in
  let* s := body_remove_con s (sc_a con) c in
  let* s := body_remove_con s (sc_b con) c in
  Some (set_c s (upd (sp_c s) c (mkSC (sc_a con) (sc_b con) false (sc_collide con)))).

(** body.go:147-223; a body of the space.  The idle time of a body made static is INFINITY in Go; it is not read while the body is static.  AccumulateMassFromShapes (new type dynamic) ends in SetPosition, which calls Activate. *)
Definition set_type (s : Space) (b : nat) (k : Kind) : option Space :=
  let old := kind s b in
  if kind_eqb old k then Some s else
  let s := upd_b s b (b_kind (b_idle (bod s b) t0) k) in
  let* s := if kind_eqb k Dyn then activate s b else Some s in
  if negb (sb_in (bod s b)) then Some s else
  let* s := if kind_eqb old Stat then Some s else activate s b in
  let s := if kind_eqb old Stat then set_dyn (set_stat s (del b (sp_stat s))) (sp_dyn s ++ [b])
           else if kind_eqb k Stat then set_stat (set_dyn s (del b (sp_dyn s))) (sp_stat s ++ [b]) else s in
  each (fun s sh =>
    let* s := if kind_eqb old Stat then if memb sh (sp_sidx s) then Some (set_sidx s (del sh (sp_sidx s))) else None
              else if memb sh (sp_didx s) then Some (set_didx s (del sh (sp_didx s))) else None in
    if kind_eqb k Stat then if memb sh (sp_sidx s) then None else Some (set_sidx s (sp_sidx s ++ [sh]))
    else if memb sh (sp_didx s) then None else Some (set_didx s (sp_didx s ++ [sh]))) s (sb_shapes (bod s b)).

(** shape.go:65-68; the other setters of a shape (133-165) and of a body end or begin with the same Activate *)
Definition set_sensor (s : Space) (x : nat) (v : bool) : option Space :=
  let body := ss_body (sp_s s x) in
  let* s := activate s body in
  Some (set_s s (upd (sp_s s) x (mkSS body (ss_in (sp_s s x)) v))).
(** constraint.go:48-51; so do SetMaxForce, SetMaxBias and SetErrorBias (57-81) *)
Definition activate_bodies (s : Space) (c : nat) : option Space :=
  let* s := activate s (sc_a (sp_c s c)) in activate s (sc_b (sp_c s c)).
(** constraint.go:91-94 *)
Definition set_collide (s : Space) (c : nat) (v : bool) : option Space :=
  let* s := activate_bodies s c in
  let con := sp_c s c in
  Some (set_c s (upd (sp_c s) c (mkSC (sc_a con) (sc_b con) (sc_in con) v))).

(** the bodies of the sleeping components, walking each from its root along sleepingNext *)
Fixpoint components (s : Space) (l : list nat) : option (list nat) :=
  match l with
  | [] => Some []
  | r :: l => let* c := members (sp_nb s) s (Some r) in let* m := components s l in Some (c ++ m)
  end.
(** space.go:896-917 with a callback that only looks: the bodies in the order of the calls *)
Definition each_body (s : Space) : option (list nat) :=
  let* m := components s (sp_sleep s) in Some (sp_dyn s ++ sp_stat s ++ m).

(** space.go:919-930, 932-940 with callbacks that only look: the shapes (constraints) in the order of the calls; the order within an
    index is Model/HashSet.v's *)
Definition each_shape (s : Space) : list nat := sp_didx s ++ sp_sidx s.
Definition each_constraint (s : Space) : list nat := sp_cons s.
(** space.go:399-409 *)
Definition contains_body (s : Space) (b : nat) : bool := sb_in (bod s b).
Definition contains_shape (s : Space) (x : nat) : bool := ss_in (sp_s s x).
Definition contains_constraint (s : Space) (c : nat) : bool := sc_in (sp_c s c).

(** *** Step *)
(** A touching pair of shapes found by the narrow phase, the arbiter the pool hands out if a new one is needed (space.go:444: a
    sync.Pool hands out any of the arbiters put back, or a new one), and the answers of the pair's begin and preSolve functions ([h_ign]: preSolve calls arb.Ignore(), arbiter.go:262-268) *)
Record Hit := mkHit { h_a : nat; h_b : nat; h_new : nat; h_begin : bool; h_pre : bool; h_ign : bool }.
(** space.go:685-693 *)
Definition start_arb (s : Space) (x : nat) : option Space :=
  let s := upd_a s x (a_state (sp_a s x) ANormal) in
  Some (if negb (sleeping s (sa_ba (sp_a s x))) && negb (sleeping s (sa_bb (sp_a s x))) then unthread s x else s).
(** space.go:525-534 *)
Definition reject_constraints (s : Space) (a b : nat) : bool :=
  existsb (fun c => negb (sc_collide (sp_c s c)) &&
    ((Nat.eqb (sc_a (sp_c s c)) a && Nat.eqb (sc_b (sp_c s c)) b) || (Nat.eqb (sc_a (sp_c s c)) b && Nat.eqb (sc_b (sp_c s c)) a))) (sb_cons (bod s a)).
(** space.go:419-481 after QueryReject's filters and Collide; arbiter.go:39-60 (Init), 189-259 (Update) *)
Definition hit_step (s : Space) (h : Hit) : option Space :=
  let a := h_a h in let b := h_b h in
  let ba := ss_body (sp_s s a) in let bb := ss_body (sp_s s b) in
  if Nat.eqb ba bb || reject_constraints s ba bb then Some s else
  let '(x, s) := match find_pair s a b with
    | Some x => (x, s)
    | None =>
      let x := h_new h in
      let s := upd_a s x (mkSA a b ba bb AFirst 0) in
      let s := set_na s (Nat.max (sp_na s) (S x)) in
      (x, set_cache (set_pool s (del x (sp_pool s))) (sp_cache s ++ [x]))
    end in
  let st := sa_state (sp_a s x) in
  let s := upd_a s x (mkSA a b ba bb (if astate_eqb st ACached then AFirst else st) (sa_stamp (sp_a s x))) in
  let s := if astate_eqb (sa_state (sp_a s x)) AFirst then
             let s := emit s (EBegin a b (h_begin h)) in
             if h_begin h then s else upd_a s x (a_state (sp_a s x) AIgnore)
           else s in
  let s := if astate_eqb (sa_state (sp_a s x)) AIgnore then s
           else
             let s := emit s (EPre a b (h_pre h) (h_ign h)) in
             let s := if h_ign h then upd_a s x (a_state (sp_a s x) AIgnore) else s in
             if h_pre h && negb (h_ign h) && negb (ss_sensor (sp_s s a) || ss_sensor (sp_s s b)) && (is_dyn s ba || is_dyn s bb)
             then set_arbs s (sp_arbs s ++ [x])
             else if h_ign h then s else upd_a s x (a_state (sp_a s x) ANormal) in
  Some (upd_a s x (a_stamp (sp_a s x) (sp_stamp s))).
Fixpoint hits_step (s : Space) (hs : list Hit) : option Space :=
  match hs with [] => Some s | h :: hs => match hit_step s h with Some s => hits_step s hs | None => None end end.

(** space.go:551-568 *)
Definition idle_step (dt : T) (moving : nat -> bool) (s : Space) (b : nat) : option Space :=
  Some (if negb (is_dyn s b) then s
        else upd_b s b (b_idle (bod s b) (if moving b then t0 else tadd (sb_idle (bod s b)) dt))).
(** body.go:465-472 *)
Definition push_arb (s : Space) (b x : nat) : option Space :=
  if memb x (sb_arbs (bod s b)) then None else Some (upd_b s b (b_arbs (bod s b) (x :: sb_arbs (bod s b)))).
(** space.go:572-587 *)
Definition push_step (sleep : bool) (s : Space) (x : nat) : option Space :=
  let a := sa_ba (sp_a s x) in let b := sa_bb (sp_a s x) in
  let* s := if sleep && (is_kin s b || sleeping s a) then activate s a else Some s in
  let* s := if sleep && (is_kin s a || sleeping s b) then activate s b else Some s in
  let* s := push_arb s a x in
  push_arb s b x.
(** space.go:591-598 *)
Definition con_step (s : Space) (c : nat) : option Space :=
  let* s := if is_kin s (sc_b (sp_c s c)) then activate s (sc_a (sp_c s c)) else Some s in
  if is_kin s (sc_a (sp_c s c)) then activate s (sc_b (sp_c s c)) else Some s.
(** body.go:474-481 *)
Definition component_add (s : Space) (root b : nat) : Space :=
  let s := upd_b s b (b_root (bod s b) (Some root)) in
  if Nat.eqb b root then s
  else let s := upd_b s b (b_next (bod s b) (sb_next (bod s root))) in
       upd_b s root (b_next (bod s root) (Some b)).
(** space.go:627-660 *)
Fixpoint flood (fuel : nat) (root : nat) (s : Space) (b : nat) : option Space :=
  match fuel with
  | O => None
  | S fuel =>
    if negb (is_dyn s b) then Some s else
    match sb_root (bod s b) with
    | Some _ => Some s
    | None =>
      let s := component_add s root b in
      each (flood fuel root) s (map (arb_other s b) (sb_arbs (bod s b)) ++ map (con_other s b) (sb_cons (bod s b)))
    end
  end.
(** space.go:617-625 *)
Definition component_active (s : Space) (l : list nat) (thr : T) : bool := existsb (fun b => tltb (sb_idle (bod s b)) thr) l.
(** space.go:600-626 *)
Definition reset_node (s : Space) (b : nat) : Space := upd_b s b (b_next (b_root (bod s b) None) None).
Fixpoint comp_loop (fuel : nat) (thr : T) (s : Space) (i : nat) : option Space :=
  match nth_error (sp_dyn s) i with
  | None => Some s
  | Some b =>
    match fuel with
    | O => None
    | S fuel =>
      if sleeping s b then comp_loop fuel thr (reset_node s b) (S i)
      else
        let* s := flood (S (S (length (sp_dyn s)))) b s b in
        let* l := members (sp_nb s) s (Some b) in
        if component_active s l thr then comp_loop fuel thr (reset_node s b) (S i)
        else
          let s := set_sleep s (sp_sleep s ++ [b]) in
          let* s := each deactivate s l in
          comp_loop fuel thr s i
    end
  end.
(** space.go:536-615; [thr = None]: SleepTimeThreshold is INFINITY *)
Definition process_components (s : Space) (dt : T) (moving : nat -> bool) (thr : option T) : option Space :=
  let sleep := match thr with Some _ => true | None => false end in
  let* s := if sleep then each (idle_step dt moving) s (sp_dyn s) else Some s in
  let* s := each (push_step sleep) s (sp_arbs s) in
  match thr with
  | None => Some s
  | Some thr =>
    let* s := each con_step s (sp_cons s) in
    comp_loop (S (length (sp_dyn s))) thr s 0
  end.
(** hashset_arbiter.go:4-32; space.go:71 (collisionPersistence = 3) *)
Definition persistence : N := 3.
Definition age_arb (s : Space) (x : nat) : option Space :=
  let arb := sp_a s x in let a := sa_ba arb in let b := sa_bb arb in
  if (is_stat s a || sleeping s a) && (is_stat s b || sleeping s b) then Some s else
  let ticks := (sp_stamp s - sa_stamp arb)%N in
  let s := if (1 <=? ticks)%N && negb (astate_eqb (sa_state arb) ACached)
           then emit (upd_a s x (a_state arb ACached)) (ESep (sa_a arb) (sa_b arb)) else s in
  if (persistence <=? ticks)%N then Some (set_pool (set_cache s (del x (sp_cache s))) (x :: sp_pool s)) else Some s.
(** space.go:777-779 *)
Definition post_one (s : Space) (x : nat) : option Space := Some (emit s (EPost (sa_a (sp_a s x)) (sa_b (sp_a s x)))).
(** space.go:676-782 *)
Definition step (s : Space) (dt : T) (moving : nat -> bool) (thr : option T) (hits : list Hit) : option Space :=
  let s := emit (set_stamp s (sp_stamp s + 1)%N) EStep in
  let* s := each start_arb s (sp_arbs s) in
  let s := set_arbs s [] in
  let* s := hits_step s hits in
  let* s := process_components s dt moving thr in
  let* s := each age_arb s (sp_cache s) in
  each post_one s (sp_arbs s).

(** space.go:784-800: Lock and Unlock (post-step callbacks: Model/PostStep.v) *)
Definition lock (s : Space) : Space := set_locked s (S (sp_locked s)).
Definition unlock (s : Space) : option Space :=
  let s := set_locked s (pred (sp_locked s)) in
  if negb (Nat.eqb (sp_locked s) 0) then Some s else
  let* s := each space_activate s (sp_roused s) in
  Some (set_roused s []).

(** space.go:116-123.  The range expression is evaluated once, but Activate deletes from the same backing array (body.go:398-405,
    append(l[:i], l[i+1:]...)): [arr] is the array, of which the first elements are the current list. *)
Definition backing (arr now : list nat) : list nat := now ++ skipn (length now) arr.
Fixpoint gravity_loop (n k : nat) (arr : list nat) (s : Space) : option Space :=
  match n with
  | O => Some s
  | S n => let* s := activate s (nth k arr 0) in gravity_loop n (S k) (backing arr (sp_sleep s)) s
  end.
Definition set_gravity (s : Space) : option Space := gravity_loop (length (sp_sleep s)) 0 (sp_sleep s) s.

(** space.go:74-110: a new space, with its static body *)
Definition new_body (k : Kind) (idle : T) : SBody := mkSB k idle None None false [] [] [].
Definition space_init (kinds : nat -> Kind) (shapes_ : nat -> nat * bool) (cons_ : nat -> nat * nat * bool) (sb : nat) : Space :=
  mkSp (fun b => new_body (kinds b) t0) (fun x => mkSS (fst (shapes_ x)) false (snd (shapes_ x))) (fun _ => mkSA 0 0 0 0 AFirst 0)
       (fun c => mkSC (fst (fst (cons_ c))) (snd (fst (cons_ c))) false (snd (cons_ c)))
       [] [] [] [] [] [] [] [] [] [] 0 0 [] 0 0 sb.
End Space.
Arguments SBody : clear implicits. Arguments Space : clear implicits.
