(** Callbacks that call back into the space: bodies activated while the space is locked (space.go:147-157, 784-800), from collision
    callbacks (space.go:676-710) and from the callback of EachBody (space.go:896-917). *)
From Coq Require Import List Arith NArith Bool.
From Verif.Model Require Import HashSet Space.
Import ListNotations.

Section Cb.
Context {T : Type} `{Time T}.
Notation Sp := (Space T).
Notation "'let*' x := e 'in' k" := (match e with Some x => k | None => None end) (at level 200, x pattern, k at level 200).

(** space.go:419-481 for each pair, where the pair's begin/preSolve callbacks activate the bodies [wake h].
    Simplification: the callbacks' calls are made after the arbiter is filed; nothing in between reads what Activate writes. *)
Fixpoint hits_cb (wake : Hit -> list nat) (s : Sp) (hs : list Hit) : option Sp :=
  match hs with
  | [] => Some s
  | h :: hs => let* s := hit_step s h in let* s := each activate s (wake h) in hits_cb wake s hs
  end.
(** space.go:676-782: Step with such callbacks; the narrow phase runs between Lock and Unlock(false) *)
Definition step_cb (s : Sp) (dt : T) (moving : nat -> bool) (thr : option T) (hits : list Hit) (wake : Hit -> list nat) : option Sp :=
  let s := emit (set_stamp s (sp_stamp s + 1)%N) EStep in
  let* s := each start_arb s (sp_arbs s) in
  let s := lock (set_arbs s []) in
  let* s := hits_cb wake s hits in
  let* s := unlock s in
  let* s := process_components s dt moving thr in
  let* s := each age_arb s (sp_cache s) in
  each post_one s (sp_arbs s).

(** space.go:896-917 with a callback that activates the bodies [f b] when it visits [b].  The dynamic and static lists do not change while
    the space is locked.  The range over sleepingComponents reads the backing array, from which Activate deletes in place; the walk
    along a component reads sleepingNext before the call.  The result is the list of visits. *)
Fixpoint walk_cb (fuel : nat) (f : nat -> list nat) (s : Sp) (b : option nat) : option (list nat * Sp) :=
  match b with
  | None => Some ([], s)
  | Some b =>
    match fuel with
    | O => None
    | S fuel => let nx := sb_next (bod s b) in let* s := each activate s (f b) in let* (l, s) := walk_cb fuel f s nx in Some (b :: l, s)
    end
  end.
Fixpoint comps_cb (n k : nat) (arr : list nat) (f : nat -> list nat) (s : Sp) : option (list nat * Sp) :=
  match n with
  | O => Some ([], s)
  | S n =>
    let* (l, s) := walk_cb (sp_nb s) f s (Some (nth k arr 0)) in
    let* (m, s) := comps_cb n (S k) (backing arr (sp_sleep s)) f s in
    Some (l ++ m, s)
  end.
Fixpoint visit_cb (f : nat -> list nat) (s : Sp) (l : list nat) : option Sp :=
  match l with [] => Some s | b :: l => let* s := each activate s (f b) in visit_cb f s l end.
Definition each_body_cb (f : nat -> list nat) (s : Sp) : option (list nat * Sp) :=
  let d := sp_dyn s in let st := sp_stat s in
  let s := lock s in
  let* s := visit_cb f s d in
  let* s := visit_cb f s st in
  let n := length (sp_sleep s) in
  let* (m, s) := comps_cb n 0 (sp_sleep s) f s in
  let* s := unlock s in
  Some (d ++ st ++ m, s).
End Cb.
