(** Collision handlers: registration, lookup, the order of shapes, and which functions a collision calls.
    The table is the pointer-level hash set of Model/HashSet.v.

    Simplifications: a handler's functions are the built-in ones or a user's function, known by a number; a user's function
    records its call and answers through an oracle, and does not itself touch the arbiter or the handler table.
    The two type fields of a handler are documented "read only" and never change.  Go's unlimited recursion is fuel,
    [None] = it ran out (stack overflow) or a nil handler was called. *)
From Coq Require Import List NArith Bool Arith.
From Verif.Model Require Import HashSet.
Import ListNotations.
Local Open Scope N_scope.

(** collision.go:353-357 (HashValue is uintptr: 64 bits) *)
Definition hashCoef : N := 3344921057.
Definition hash_pair (a b : N) : N := N.lxor ((a * hashCoef) mod 2 ^ 64) ((b * hashCoef) mod 2 ^ 64).
(** arbiter.go:5 *)
Definition WILDCARD : N := 2 ^ 64 - 1.

(** A value of a function field: Default* (arbiter.go:388-404), AlwaysCollide/DoNothing (arbiter.go:380-386), a user's *)
Inductive Fn := FDefault | FNothing | FUser (id : nat).
(** everything.go:64-81 without the types *)
Record Fns := mkFns { f_begin : Fn; f_pre : Fn; f_post : Fn; f_sep : Fn; f_data : nat }.
(** a pointer to a handler with its two (constant) types *)
Record Key := mkKey { k_ptr : nat; k_a : N; k_b : N }.
(** space.go:85-93 *)
Definition key_eql (a b : Key) : bool :=
  if (k_a a =? k_a b) && (k_b a =? k_b b) then true
  else if (k_b a =? k_a b) && (k_a a =? k_b b) then true else false.

(** the part of Space about handlers: space.go:46-48; [hd_fns] is the memory the pointers point to *)
Record HSpace := mkHSp { hd_set : HSet Key; hd_fns : nat -> Fns; hd_fresh : nat; hd_wild : bool }.
(** space.go:76-96 *)
Definition h_init : HSpace := mkHSp hs_new (fun _ => mkFns FNothing FNothing FNothing FNothing 0) 0 false.

(** handler pointers: &CollisionHandlerDoNothing, &CollisionHandlerDefault (arbiter.go:360-378), a registered one *)
Inductive Hdl := HDoNothing | HDefault | HReg (k : Key).
Definition hdl_type_a (h : Hdl) : N := match h with HReg k => k_a k | _ => WILDCARD end.
Definition hdl_fns (s : HSpace) (h : Hdl) : Fns :=
  match h with
  | HDoNothing => mkFns FNothing FNothing FNothing FNothing 0
  | HDefault => mkFns FDefault FDefault FDefault FDefault 0
  | HReg k => hd_fns s (k_ptr k)
  end.
Definition default_handler (s : HSpace) : Hdl := if hd_wild s then HDefault else HDoNothing.
Definition is_default (s : HSpace) (h : Hdl) : bool :=
  match h with HReg _ => false | HDoNothing => negb (hd_wild s) | HDefault => hd_wild s end.

(** space.go:851-858 *)
Definition lookup (s : HSpace) (a b : N) (dflt : Hdl) : option Hdl :=
  match hs_find key_eql (hd_set s) (hash_pair a b) (mkKey 0 a b) with
  | None => None | Some (Some k) => Some (HReg k) | Some None => Some dflt end.
(** allocation of a handler and Insert *)
Definition register (s : HSpace) (a b : N) (f : Fns) : option (Key * HSpace) :=
  let k := mkKey (hd_fresh s) a b in
  let s := mkHSp (hd_set s) (upd (hd_fns s) (hd_fresh s) f) (S (hd_fresh s)) (hd_wild s) in
  match hs_insert key_eql (hd_set s) (hash_pair a b) k (fun k => k) with
  | None => None
  | Some (k, set) => Some (k, mkHSp set (hd_fns s) (hd_fresh s) (hd_wild s))
  end.
(** space.go:860-864 *)
Definition new_handler (s : HSpace) (a b : N) := register s a b (mkFns FDefault FDefault FDefault FDefault 0).
(** space.go:866-879 *)
Definition new_wildcard (s : HSpace) (t : N) :=
  register (mkHSp (hd_set s) (hd_fns s) (hd_fresh s) true) t WILDCARD (mkFns FNothing FNothing FNothing FNothing 0).
(** assignments to the exported fields of a handler *)
Definition assign (s : HSpace) (ptr : nat) (f : Fns) : HSpace := mkHSp (hd_set s) (upd (hd_fns s) ptr f) (hd_fresh s) (hd_wild s).

(** the arbiter's fields: shapes (numbers), their collision types, handlers *)
Record HArb := mkHArb { ha_a : nat; ha_b : nat; ha_handler : Hdl; ha_swapped : bool; ha_ha : option Hdl; ha_hb : option Hdl }.
(** arbiter.go:236-254 (Update), on an arbiter whose wildcard handlers were [oa], [ob] *)
Definition update_handlers (s : HSpace) (sa sb : nat) (ta tb : N) (oa ob : option Hdl) : option HArb :=
  match lookup s ta tb (default_handler s) with
  | None => None
  | Some h =>
    let swapped := negb (ta =? hdl_type_a h) && negb (hdl_type_a h =? WILDCARD) in
    if negb (is_default s h) || hd_wild s then
      let '(x, y) := if swapped then (tb, ta) else (ta, tb) in
      match lookup s x WILDCARD HDoNothing, lookup s y WILDCARD HDoNothing with
      | Some ha, Some hb => Some (mkHArb sa sb h swapped (Some ha) (Some hb))
      | _, _ => None
      end
    else Some (mkHArb sa sb h swapped oa ob)
  end.
(** arbiter.go:425-431 *)
Definition shapes (arb : HArb) : nat * nat := if ha_swapped arb then (ha_b arb, ha_a arb) else (ha_a arb, ha_b arb).
Definition toggled (arb : HArb) : HArb := mkHArb (ha_a arb) (ha_b arb) (ha_handler arb) (negb (ha_swapped arb)) (ha_ha arb) (ha_hb arb).

Inductive Phase := PBegin | PPreSolve | PPostSolve | PSeparate.
Definition fn_of (ph : Phase) (f : Fns) : Fn :=
  match ph with PBegin => f_begin f | PPreSolve => f_pre f | PPostSolve => f_post f | PSeparate => f_sep f end.
(** the third argument of a callback *)
Inductive Data := DUser (d : nat) | DHandler (h : Hdl).
(** a call of a user's function: which, in which phase, what arb.Shapes() says during the call, and the third argument *)
Record Call := mkCall { c_fn : nat; c_phase : Phase; c_shapes : nat * nat; c_data : Data }.

Section Run.
Variable s : HSpace.
(** the user's answers, depending on everything called so far *)
Variable ans : list Call -> Call -> bool.
(** h.Func(arb, space, data): arbiter.go:273-322 and 380-404.  Begin and PreSolve use &&, PostSolve and Separate call both. *)
Fixpoint run_fn (fuel : nat) (ph : Phase) (arb : HArb) (h : Hdl) (data : Data) (tr : list Call) : option (bool * list Call) :=
  match fn_of ph (hdl_fns s h) with
  | FNothing => Some (true, tr)
  | FUser id => let c := mkCall id ph (shapes arb) data in Some (ans tr c, tr ++ [c])
  | FDefault =>
    match fuel, ha_ha arb, ha_hb arb with
    | S fuel, Some ha, Some hb =>
      match run_fn fuel ph arb ha (DUser (f_data (hdl_fns s ha))) tr with
      | None => None
      | Some (ra, tr) =>
        match ph, ra with
        | PBegin, false | PPreSolve, false => Some (false, tr)
        | _, _ => run_fn fuel ph (toggled arb) hb (DUser (f_data (hdl_fns s hb))) tr
        end
      end
    | _, _, _ => None
    end
  end.
(** space.go:448 (Begin), 455 (PreSolve), 778 (PostSolve: the handler instead of its UserData), 411 (Separate) *)
Definition run_phase (fuel : nat) (ph : Phase) (arb : HArb) : option (bool * list Call) :=
  run_fn fuel ph arb (ha_handler arb) (match ph with PPostSolve => DHandler (ha_handler arb) | _ => DUser (f_data (hdl_fns s (ha_handler arb))) end) [].
End Run.

(** everything.go:186-192 *)
Record Filter := mkFilter { fl_group : N; fl_cat : N; fl_mask : N }.
Definition reject (a b : Filter) : bool :=
  (negb (fl_group a =? 0) && (fl_group a =? fl_group b)) || (N.land (fl_cat a) (fl_mask b) =? 0) || (N.land (fl_cat b) (fl_mask a) =? 0).
