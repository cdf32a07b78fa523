(** What contact memory is for, without buffers: every remembered pair of shapes has a note
    of its own, holding its contacts and the step in which the pair last touched. *)
From Coq Require Import ZArith Arith Bool List.
From Verif Require Import Num.
From Verif.Model Require Import Vector Solver Contacts.
Import ListNotations.
Local Open Scope nat_scope.

Section SpecContacts.
Context {T : Type} `{Num T}.
Notation Con := (Contact T).

(** The things that happen to contact memory. Pairs are numbers. *)
Inductive event :=
| Begin                                   (* a step begins *)
| Touch (a : nat) (pa pb : Vec T) (found : list (Vec T * Vec T * Z)) (ok : bool)
                                          (* the shapes of pair [a], whose bodies are at pa and pb, touch in the
                                             points found (with their hashes); ok: the collision is processed *)
| Wake (a : nat)                          (* the pair's bodies wake up *)
| Rest (a : nat)                          (* the pair's bodies fall asleep *)
| Write (a : nat) (l : list Con)          (* the solver or the user assigns the pair's contacts *)
| Gone (a : nat)                          (* a shape of the pair leaves the space *)
| Sweep (idle : nat -> bool).             (* Step drops the old pairs, except those whose two bodies are
                                             static or sleeping *)

(** [stored]: put away with sleeping bodies *)
Record note := mkNote { nt_stamp : nat; nt_stored : bool; nt_contacts : list Con }.
Record book := mkBook { bk_now : nat; bk_note : nat -> option note }.
Definition blank : book := mkBook 0 (fun _ => None).

Definition set_note (k : book) (a : nat) (n : option note) : book :=
  mkBook (bk_now k) (fun b => if b =? a then n else bk_note k b).
Definition contacts_of (k : book) (a : nat) : list Con :=
  match bk_note k a with Some n => nt_contacts n | None => [] end.

(** a new contact: relative to the bodies, with the impulses of the old contact of that hash *)
Definition warm (pa pb : Vec T) (old : list Con) (r : Vec T * Vec T * Z) : Con :=
  let '(p1, p2, h) := r in
  let '(jn, jt) := fold_left (fun acc o => if (h =? c_hash o)%Z then (c_jnAcc o, c_jtAcc o) else acc) old (nzero, nzero) in
  mkCon (vsub p1 pa) (vsub p2 pb) nzero nzero nzero jn jt nzero nzero h.

Definition happen (k : book) (e : event) : book :=
  match e with
  | Begin => mkBook (S (bk_now k)) (bk_note k)
  | Touch a pa pb [] ok => k
  | Touch a pa pb found ok =>
      set_note k a (Some (mkNote (bk_now k) false (if ok then map (warm pa pb (contacts_of k a)) found else [])))
  | Wake a => match bk_note k a with
              | Some n => set_note k a (Some (mkNote (bk_now k) false (nt_contacts n))) | None => k end
  | Rest a => match bk_note k a with
              | Some n => set_note k a (Some (mkNote (nt_stamp n) true (nt_contacts n))) | None => k end
  | Write a l => match bk_note k a with
                 | Some n => if length l =? length (nt_contacts n)
                             then set_note k a (Some (mkNote (nt_stamp n) (nt_stored n) l)) else k
                 | None => k end
  | Gone a => set_note k a None
  | Sweep idle => mkBook (bk_now k) (fun a =>
      match bk_note k a with
      | Some n => if nt_stored n || idle a || (bk_now k - nt_stamp n <? 3) then Some n else None
      | None => None end)
  end.
Definition tell (es : list event) (k : book) : book := fold_left happen es k.

(** At most two contacts are found per pair, and nothing touches before the first step. *)
Definition sane (k : book) (e : event) : Prop :=
  match e with
  | Begin | Write _ _ | Rest _ | Gone _ | Sweep _ => True
  | Touch _ _ _ found _ => length found <= 2 /\ 0 < bk_now k
  | Wake a => 0 < bk_now k
  end.
(** No pair that is not stored away has, when a step begins, contacts more than three steps old. *)
Definition timely (k : book) (e : event) : Prop :=
  match e with
  | Begin => forall a n, bk_note k a = Some n -> nt_stored n = false -> nt_contacts n <> [] -> S (bk_now k) - nt_stamp n <= 3
  | _ => True
  end.
Fixpoint holds_along (P : book -> event -> Prop) (k : book) (es : list event) : Prop :=
  match es with [] => True | e :: es => P k e /\ holds_along P (happen k e) es end.

(** The part of a contact that outlives a step (the rest is recomputed before each solve). *)
Definition same_contact (c d : Con) : Prop :=
  c_r1 c = c_r1 d /\ c_r2 c = c_r2 d /\ c_jnAcc c = c_jnAcc d /\ c_jtAcc c = c_jtAcc d /\ c_hash c = c_hash d.

(** ** Histories made of whole steps *)
(** A step: it begins, pairs touch, bodies wake and fall asleep, the old pairs are swept, the
    solver writes; then, until the next step, anything the program does between steps. *)
Definition touching (e : event) : Prop := match e with Touch _ _ _ _ _ | Write _ _ | Gone _ => True | _ => False end.
Definition stirring (e : event) : Prop := match e with Wake _ | Rest _ | Write _ _ | Gone _ => True | _ => False end.
Inductive step_history : list event -> Prop :=
| sh_nil : step_history []
| sh_step es ts ws idle rest :
    step_history es -> Forall touching ts -> Forall stirring ws -> Forall stirring rest ->
    step_history (es ++ Begin :: ts ++ ws ++ Sweep idle :: rest).
(** Where a sweep spares a pair as idle, that pair has no contacts or they are stored away. *)
Definition stored_when_idle (k : book) (e : event) : Prop :=
  match e with
  | Sweep idle => forall a n, bk_note k a = Some n -> idle a = true -> nt_stored n = true \/ nt_contacts n = []
  | _ => True
  end.

(** ** How much contact memory a step needs *)
(** the contacts an event puts into the buffers *)
Definition kept (k : book) (e : event) : nat :=
  match e with
  | Touch _ _ _ found true => length found
  | Wake a => length (contacts_of k a)
  | _ => 0
  end.
(** no step keeps more than [m] contacts; [load]: those of the current step so far *)
Fixpoint light (m load : nat) (k : book) (es : list event) : Prop :=
  match es with
  | [] => True
  | e :: es => let load := match e with Begin => 0 | _ => load + kept k e end in
               load <= m /\ light m load (happen k e) es
  end.

(** ** The code of Model/Contacts.v carrying out the events *)
Definition cs_event (s : CSpace T) (e : event) : option (CSpace T) :=
  match e with
  | Begin => Some (cs_tick s)
  | Touch a pa pb found ok => cs_collide s a pa pb found ok
  | Wake a => cs_restore s a
  | Rest a => Some (cs_store s a)
  | Write a l => Some (cs_write s a l)
  | Gone a => Some (cs_forget s a)
  | Sweep idle => Some (cs_filter s idle)
  end.
Fixpoint cs_run (es : list event) (s : CSpace T) : option (CSpace T) :=
  match es with
  | [] => Some s
  | e :: es => match cs_event s e with Some s => cs_run es s | None => None end
  end.
End SpecContacts.
Arguments event : clear implicits. Arguments book : clear implicits. Arguments note : clear implicits.
