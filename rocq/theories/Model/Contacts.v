(** The contact buffers: contactbuffer.go, and the parts of space.go, arbiter.go and
    hashset_arbiter.go that hand contact memory to arbiters and take it back.

    Buffers live on a heap and are linked by [next] into a ring, as in the Go code.  A Go
    slice onto a buffer is the pair (buffer, offset); its length is the arbiter's [count].
    Simplifications: arbiters are named by numbers and the set cachedArbiters is the flag
    [x_cached] (its hash table is Model/HashSet.v, its keys are C09); the narrow phase and
    the solver are inputs (the contacts found, the contacts written); the stamp, a Go uint,
    is an unbounded natural.  [None] is a Go panic. *)
From Coq Require Import ZArith Arith Bool List.
From Verif Require Import Num.
From Verif.Model Require Import Vector Solver.
Import ListNotations.

(** space.go:9-10 and space.go:70 *)
Definition max_contacts : nat := 2.
Definition buffer_size : nat := 1024.
Definition persistence : nat := 3.

Section Contacts.
Context {T : Type} `{Num T}.
Notation Con := (Contact T).

(** contactbuffer.go:3-11 *)
Record CBuf := mkCBuf { u_stamp : nat; u_next : nat; u_num : nat; u_con : nat -> Con }.
(** arbiter.go:22-23: the slice [contacts]; after Space.Deactivate it is a private block *)
Inductive Mem := MNil | MRing (b off : nat) | MOwn (l : list Con).
(** arbiter.go:11-34, the fields concerned *)
Record CArb := mkCArb { x_stamp : nat; x_count : nat; x_mem : Mem; x_cached : bool }.
(** space.go:17-45: stamp, contactBuffersHead, and the heap *)
Record CSpace := mkCS { k_stamp : nat; k_bufs : nat -> CBuf; k_nbufs : nat; k_head : option nat;
                        k_arbs : nat -> option CArb }.

(** the zero values of Go *)
Definition zero_con : Con := mkCon (mkV nzero nzero) (mkV nzero nzero) nzero nzero nzero nzero nzero nzero nzero 0%Z.
Definition cs_new : CSpace := mkCS 0 (fun _ => mkCBuf 0 0 0 (fun _ => zero_con)) 0 None (fun _ => None).

Definition upd {A} (f : nat -> A) (i : nat) (x : A) : nat -> A := fun j => if (j =? i)%nat then x else f j.
Definition with_bufs (s : CSpace) (f : nat -> CBuf) : CSpace := mkCS (k_stamp s) f (k_nbufs s) (k_head s) (k_arbs s).
Definition with_head (s : CSpace) (h : nat) : CSpace := mkCS (k_stamp s) (k_bufs s) (k_nbufs s) (Some h) (k_arbs s).
Definition with_arbs (s : CSpace) (f : nat -> option CArb) : CSpace := mkCS (k_stamp s) (k_bufs s) (k_nbufs s) (k_head s) f.

(** contactbuffer.go:19-29 InitHeader: [next] is the next of the splice, or the buffer itself *)
Definition init_header (s : CSpace) (c : nat) (stamp : nat) (splice : option nat) : CSpace :=
  let nx := match splice with Some t => u_next (k_bufs s t) | None => c end in
  with_bufs s (upd (k_bufs s) c (mkCBuf stamp nx 0 (u_con (k_bufs s c)))).
(** contactbuffer.go:13-17: a zeroed buffer at a fresh address *)
Definition new_buffer (s : CSpace) (stamp : nat) (splice : option nat) : CSpace * nat :=
  let c := k_nbufs s in
  let s := mkCS (k_stamp s) (upd (k_bufs s) c (mkCBuf 0 0 0 (fun _ => zero_con))) (S c) (k_head s) (k_arbs s) in
  (init_header s c stamp splice, c).

(** space.go:483-498 PushFreshContactBuffer *)
Definition push_fresh (s : CSpace) : CSpace :=
  let stamp := k_stamp s in
  match k_head s with
  | None => let '(s, c) := new_buffer s stamp None in with_head s c
  | Some h =>
    let tail := u_next (k_bufs s h) in
    if (persistence <? stamp - u_stamp (k_bufs s tail))%nat then
      with_head (init_header s tail stamp (Some tail)) tail
    else
      let '(s, c) := new_buffer s stamp (Some h) in
      let hb := k_bufs s h in
      let s := with_bufs s (upd (k_bufs s) h (mkCBuf (u_stamp hb) c (u_num hb) (u_con hb))) in
      with_head s c
  end.

(** space.go:500-507 ContactBufferGetArray: the buffer and the offset of the slice
    [numContacts : numContacts+MAX]; slicing out of range or without a head panics *)
Definition get_array (s : CSpace) : option (CSpace * nat * nat) :=
  match k_head s with
  | None => None
  | Some h =>
    let s := if (buffer_size <? u_num (k_bufs s h) + max_contacts)%nat then push_fresh s else s in
    match k_head s with
    | None => None
    | Some h => let n := u_num (k_bufs s h) in
                if (n + max_contacts <=? buffer_size)%nat then Some (s, h, n) else None
    end
  end.

(** space.go:842-849 PushContacts, PopContacts *)
Definition set_num (s : CSpace) (f : nat -> nat) : CSpace :=
  match k_head s with
  | None => s
  | Some h => let hb := k_bufs s h in
              with_bufs s (upd (k_bufs s) h (mkCBuf (u_stamp hb) (u_next hb) (f (u_num hb)) (u_con hb)))
  end.
Definition push_contacts (s : CSpace) (n : nat) : CSpace := set_num s (fun k => k + n)%nat.
Definition pop_contacts (s : CSpace) (n : nat) : CSpace := set_num s (fun k => k - n)%nat.

(** a contact of a buffer, and an assignment to it *)
Definition slot (s : CSpace) (b i : nat) : Con := u_con (k_bufs s b) i.
Definition set_slot (s : CSpace) (b i : nat) (c : Con) : CSpace :=
  let bb := k_bufs s b in
  with_bufs s (upd (k_bufs s) b (mkCBuf (u_stamp bb) (u_next bb) (u_num bb) (upd (u_con bb) i c))).
Fixpoint set_slots (s : CSpace) (b i : nat) (l : list Con) : CSpace :=
  match l with [] => s | c :: l => set_slots (set_slot s b i c) b (S i) l end.

(** the contacts arb.contacts[0..count) *)
Definition mem_read (s : CSpace) (m : Mem) (n : nat) : list Con :=
  match m with
  | MNil => []
  | MRing b off => map (fun i => slot s b (off + i)) (seq 0 n)
  | MOwn l => firstn n l
  end.
Definition recall (s : CSpace) (a : nat) : list Con :=
  match k_arbs s a with Some x => mem_read s (x_mem x) (x_count x) | None => [] end.

(** what the narrow phase reports of one contact: the two points and the hash *)
Definition Raw : Type := (Vec T * Vec T * Z)%type.
(** everything.go:122-131 PushContact, once per contact: only r1, r2 and hash are written *)
Fixpoint push_raw (s : CSpace) (b i : nat) (raw : list Raw) : CSpace :=
  match raw with
  | [] => s
  | (p1, p2, h) :: raw =>
    let c := slot s b i in
    push_raw (set_slot s b i (mkCon p1 p2 (c_nMass c) (c_tMass c) (c_bounce c) (c_jnAcc c) (c_jtAcc c) (c_jBias c) (c_bias c) h))
             b (S i) raw
  end.
(** arbiter.go:201-224, the loop of Update: the old contacts are read from memory each time *)
Fixpoint update_loop (s : CSpace) (x : CArb) (pa pb : Vec T) (b i n : nat) : CSpace :=
  match n with
  | O => s
  | S n => let old := mem_read s (x_mem x) (x_count x) in
           update_loop (set_slot s b i (con_update pa pb old (slot s b i))) x pa pb b (S i) n
  end.

(** space.go:420-481 SpaceCollideShapesFunc from the call of Collide on, for the arbiter [a]
    that cachedArbiters gives for the pair; [ok]: the callbacks, the sensor flags and the
    masses let the collision through *)
Definition cs_collide (s : CSpace) (a : nat) (pa pb : Vec T) (raw : list Raw) (ok : bool) : option CSpace :=
  match get_array s with
  | None => None
  | Some (s, b, off) =>
    if (max_contacts <? length raw)%nat then None else
    let n := length raw in
    let s := push_raw s b off raw in
    match n with
    | O => Some s
    | _ =>
      let s := push_contacts s n in
      let x := match k_arbs s a with Some x => x | None => mkCArb 0 0 MNil true end in
      let s := update_loop s x pa pb b off n in
      if ok then Some (with_arbs s (upd (k_arbs s) a (Some (mkCArb (k_stamp s) n (MRing b off) true))))
      else let s := pop_contacts s n in
           Some (with_arbs s (upd (k_arbs s) a (Some (mkCArb (k_stamp s) 0 MNil true))))
    end
  end.

(** space.go:173-192, the arbiter part of Space.Activate *)
Definition cs_restore (s : CSpace) (a : nat) : option CSpace :=
  match k_arbs s a with
  | None => Some s
  | Some x =>
    match get_array s with
    | None => None
    | Some (s, b, off) =>
      let n := x_count x in
      if (max_contacts <? n)%nat then None else
      let s := set_slots s b off (mem_read s (x_mem x) n) in
      let s := push_contacts s n in
      Some (with_arbs s (upd (k_arbs s) a (Some (mkCArb (k_stamp s) n (MRing b off) true))))
    end
  end.
(** space.go:219-228, the arbiter part of Space.Deactivate *)
Definition cs_store (s : CSpace) (a : nat) : CSpace :=
  match k_arbs s a with
  | None => s
  | Some x => with_arbs s (upd (k_arbs s) a (Some (mkCArb (x_stamp x) (x_count x) (MOwn (recall s a)) false)))
  end.
(** arbiter.go:130-190 (ApplyCachedImpulse, ApplyImpulse, PreStep) and 515-530
    (SetContactPointSet): the contacts of the arbiter are assigned in place *)
Definition cs_write (s : CSpace) (a : nat) (l : list Con) : CSpace :=
  match k_arbs s a with
  | None => s
  | Some x =>
    if (length l =? x_count x)%nat then
      match x_mem x with
      | MNil => s
      | MRing b off => set_slots s b off l
      | MOwn _ => with_arbs s (upd (k_arbs s) a (Some (mkCArb (x_stamp x) (x_count x) (MOwn l) (x_cached x))))
      end
    else s
  end.
(** hashset_arbiter.go:34-62: the pair's shape or body left the space *)
Definition cs_forget (s : CSpace) (a : nat) : CSpace := with_arbs s (upd (k_arbs s) a None).
(** hashset_arbiter.go:4-32 over the whole set; [idle]: both bodies static or sleeping *)
Definition cs_filter (s : CSpace) (idle : nat -> bool) : CSpace :=
  with_arbs s (fun a =>
    match k_arbs s a with
    | None => None
    | Some x => if x_cached x then
                  if idle a then Some x
                  else if (persistence <=? k_stamp s - x_stamp x)%nat then None else Some x
                else Some x
    end).
(** space.go:681 and 705: the part of Step up to the narrow phase *)
Definition cs_tick (s : CSpace) : CSpace :=
  push_fresh (mkCS (S (k_stamp s)) (k_bufs s) (k_nbufs s) (k_head s) (k_arbs s)).

End Contacts.
Arguments CSpace : clear implicits. Arguments CArb : clear implicits. Arguments CBuf : clear implicits. Arguments Mem : clear implicits.
Arguments Raw : clear implicits.
