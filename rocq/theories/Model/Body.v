(** body.go: the numeric state of a rigid body and the functions over it.

    Pointers into the space (shape list identity, arbiter list, constraint list,
    sleeping links, space) are not in this record: they are modelled in
    Model/Space*.v and Model/Lists*.v.  Here [Activate] only resets the idle
    time; its effect on sleeping components is modelled with the space. *)
From Coq Require Import ZArith Bool List.
From Verif Require Import Num.
From Verif.Model Require Import Vector BB Transform.
Import ListNotations.
Local Open Scope num_scope.

(** everything.go:138-142 *)
Record MassInfo (T : Type) := mkMI { mi_m : T; mi_i : T; mi_area : T; mi_cog : Vec T }.
Arguments mkMI {T}. Arguments mi_m {T}. Arguments mi_i {T}. Arguments mi_area {T}. Arguments mi_cog {T}.

(** body.go:22-63 (numeric fields and the mass infos of the shape list) *)
Record Body (T : Type) := mkBody {
  b_m : T; b_minv : T; b_i : T; b_iinv : T; b_cog : Vec T;
  b_p : Vec T; b_v : Vec T; b_f : Vec T; b_a : T; b_w : T; b_t : T;
  b_tr : Transform T; b_vbias : Vec T; b_wbias : T;
  b_shapes : list (MassInfo T); b_idle : T }.
Arguments mkBody {T}. Arguments b_m {T}. Arguments b_minv {T}. Arguments b_i {T}. Arguments b_iinv {T}.
Arguments b_cog {T}. Arguments b_p {T}. Arguments b_v {T}. Arguments b_f {T}. Arguments b_a {T}.
Arguments b_w {T}. Arguments b_t {T}. Arguments b_tr {T}. Arguments b_vbias {T}. Arguments b_wbias {T}.
Arguments b_shapes {T}. Arguments b_idle {T}.

(** body.go:9-13 *)
Inductive BodyType := DYNAMIC | KINEMATIC | STATIC.

(** Field updates (Go assignments). *)
Section Setters.
Context {T : Type}.
Definition upd_mass (b : Body T) m mi := mkBody m mi (b_i b) (b_iinv b) (b_cog b) (b_p b) (b_v b) (b_f b)
  (b_a b) (b_w b) (b_t b) (b_tr b) (b_vbias b) (b_wbias b) (b_shapes b) (b_idle b).
Definition upd_moment (b : Body T) i ii := mkBody (b_m b) (b_minv b) i ii (b_cog b) (b_p b) (b_v b) (b_f b)
  (b_a b) (b_w b) (b_t b) (b_tr b) (b_vbias b) (b_wbias b) (b_shapes b) (b_idle b).
Definition upd_cog (b : Body T) c := mkBody (b_m b) (b_minv b) (b_i b) (b_iinv b) c (b_p b) (b_v b) (b_f b)
  (b_a b) (b_w b) (b_t b) (b_tr b) (b_vbias b) (b_wbias b) (b_shapes b) (b_idle b).
Definition upd_p (b : Body T) p := mkBody (b_m b) (b_minv b) (b_i b) (b_iinv b) (b_cog b) p (b_v b) (b_f b)
  (b_a b) (b_w b) (b_t b) (b_tr b) (b_vbias b) (b_wbias b) (b_shapes b) (b_idle b).
Definition upd_vel (b : Body T) v w := mkBody (b_m b) (b_minv b) (b_i b) (b_iinv b) (b_cog b) (b_p b) v (b_f b)
  (b_a b) w (b_t b) (b_tr b) (b_vbias b) (b_wbias b) (b_shapes b) (b_idle b).
Definition upd_force (b : Body T) f t := mkBody (b_m b) (b_minv b) (b_i b) (b_iinv b) (b_cog b) (b_p b) (b_v b) f
  (b_a b) (b_w b) t (b_tr b) (b_vbias b) (b_wbias b) (b_shapes b) (b_idle b).
Definition upd_a (b : Body T) a := mkBody (b_m b) (b_minv b) (b_i b) (b_iinv b) (b_cog b) (b_p b) (b_v b) (b_f b)
  a (b_w b) (b_t b) (b_tr b) (b_vbias b) (b_wbias b) (b_shapes b) (b_idle b).
Definition upd_tr (b : Body T) tr := mkBody (b_m b) (b_minv b) (b_i b) (b_iinv b) (b_cog b) (b_p b) (b_v b) (b_f b)
  (b_a b) (b_w b) (b_t b) tr (b_vbias b) (b_wbias b) (b_shapes b) (b_idle b).
Definition upd_bias (b : Body T) vb wb := mkBody (b_m b) (b_minv b) (b_i b) (b_iinv b) (b_cog b) (b_p b) (b_v b) (b_f b)
  (b_a b) (b_w b) (b_t b) (b_tr b) vb wb (b_shapes b) (b_idle b).
Definition upd_shapes (b : Body T) l := mkBody (b_m b) (b_minv b) (b_i b) (b_iinv b) (b_cog b) (b_p b) (b_v b) (b_f b)
  (b_a b) (b_w b) (b_t b) (b_tr b) (b_vbias b) (b_wbias b) l (b_idle b).
Definition upd_idle (b : Body T) x := mkBody (b_m b) (b_minv b) (b_i b) (b_iinv b) (b_cog b) (b_p b) (b_v b) (b_f b)
  (b_a b) (b_w b) (b_t b) (b_tr b) (b_vbias b) (b_wbias b) (b_shapes b) x.
End Setters.

Section BodyFns.
Context {T : Type} `{Num T}.
Notation V := (Vec T).
Notation B := (Body T).

(** body.go:226-234 *)
Definition b_type (b : B) : BodyType :=
  if b_idle b =? ninf then STATIC else if b_m b =? ninf then KINEMATIC else DYNAMIC.
Definition is_dynamic (b : B) : bool := match b_type b with DYNAMIC => true | _ => false end.
Definition is_kinematic (b : B) : bool := match b_type b with KINEMATIC => true | _ => false end.

(** body.go:375-380 (the part that concerns this body alone; the waking of its
    component and neighbours, 382-419, is in the space model) *)
Definition b_activate (b : B) : B := if is_dynamic b then upd_idle b nzero else b.

(** body.go:280-282 *)
Definition b_rotation (b : B) : V := mkV (ta (b_tr b)) (tb (b_tr b)).
(** body.go:285-287 *)
Definition b_position (b : B) : V := t_point (b_tr b) vzero.
(** body.go:493-495 *)
Definition b_world_to_local (b : B) (p : V) : V := t_point (t_rigid_inverse (b_tr b)) p.
(** body.go:500-502 *)
Definition b_local_to_world (b : B) (p : V) : V := t_point (b_tr b) p.
(** body.go:534-537 *)
Definition b_velocity_at_local (b : B) (p : V) : V :=
  let r := t_vect (b_tr b) (vsub p (b_cog b)) in vadd (b_v b) (vmult (vperp r) (b_w b)).
(** body.go:542-545 *)
Definition b_velocity_at_world (b : B) (p : V) : V :=
  let r := vsub p (t_point (b_tr b) (b_cog b)) in vadd (b_v b) (vmult (vperp r) (b_w b)).

(** body.go:123-127 *)
Definition b_set_moment (b : B) (x : T) : B := upd_moment (b_activate b) x (none_ / x).
(** body.go:135-139 *)
Definition b_set_mass (b : B) (x : T) : B := upd_mass (b_activate b) x (none_ / x).
(** body.go:304-307 *)
Definition b_set_velocity (b : B) (x y : T) : B := let b := b_activate b in upd_vel b (mkV x y) (b_w b).
(** body.go:310-313 *)
Definition b_set_velocity_vector (b : B) (v : V) : B := let b := b_activate b in upd_vel b v (b_w b).
(** body.go:336-339 *)
Definition b_set_force (b : B) (f : V) : B := let b := b_activate b in upd_force b f (b_t b).
(** body.go:347-350 *)
Definition b_set_torque (b : B) (t : T) : B := let b := b_activate b in upd_force b (b_f b) t.
(** body.go:358-361 *)
Definition b_set_angular_velocity (b : B) (w : T) : B := let b := b_activate b in upd_vel b (b_v b) w.
(** body.go:505-511 *)
Definition b_apply_force_world (b : B) (force point : V) : B :=
  let b := b_activate b in
  let f := vadd (b_f b) force in
  let r := vsub point (t_point (b_tr b) (b_cog b)) in
  upd_force b f (b_t b + vcross r force).
(** body.go:514-516 *)
Definition b_apply_force_local (b : B) (force point : V) : B :=
  b_apply_force_world b (t_vect (b_tr b) force) (t_point (b_tr b) point).
(** arbiter.go:338-342 *)
Definition apply_impulse (b : B) (j r : V) : B :=
  upd_vel b (vadd (b_v b) (vmult j (b_minv b))) (b_w b + b_iinv b * vcross r j).
(** body.go:519-524 *)
Definition b_apply_impulse_world (b : B) (j point : V) : B :=
  let b := b_activate b in
  let r := vsub point (t_point (b_tr b) (b_cog b)) in apply_impulse b j r.
(** body.go:527-529 *)
Definition b_apply_impulse_local (b : B) (j point : V) : B :=
  b_apply_impulse_world b (t_vect (b_tr b) j) (t_point (b_tr b) point).

(** body.go:451-463 *)
Definition b_kinetic_energy (b : B) : T :=
  let vsq := vdot (b_v b) (b_v b) in
  let wsq := b_w b * b_w b in
  let a := if negb (vsq =? nzero) then vsq * b_m b else nzero in
  let c := if negb (wsq =? nzero) then wsq * b_i b else nzero in
  a + c.

(** body.go:623-633; the method UpdateVelocity (316-328) is the same code after
    an assertion that mass and moment are positive *)
Definition b_update_velocity (b : B) (gravity : V) (damping dt : T) : B :=
  if is_kinematic b then b else
  let v := vadd (vmult (b_v b) damping) (vmult (vadd gravity (vmult (b_f b) (b_minv b))) dt) in
  let w := b_w b * damping + b_t b * b_iinv b * dt in
  upd_force (upd_vel b v w) vzero nzero.

Context `{Trig T}.
(** body.go:364-372 *)
Definition b_set_transform (b : B) (p : V) (a : T) : B :=
  let rx := ncos a in let ry := nsin a in
  let c := b_cog b in
  upd_tr b (t_transpose rx (- ry) (vx p - (vx c * rx - vy c * ry))
                        ry rx (vy p - (vx c * ry + vy c * rx))).
(** body.go:111-115 *)
Definition b_set_angle (b : B) (a : T) : B :=
  let b := upd_a (b_activate b) a in b_set_transform b (b_p b) a.
(** body.go:290-294 *)
Definition b_set_position (b : B) (pos : V) : B :=
  let b := b_activate b in
  let b := upd_p b (vadd (t_vect (b_tr b) (b_cog b)) pos) in
  b_set_transform b (b_p b) (b_a b).
(** body.go:636-643 *)
Definition b_update_position (b : B) (dt : T) : B :=
  let b := upd_p b (vadd (b_p b) (vmult (vadd (b_v b) (b_vbias b)) dt)) in
  let b := upd_a b (b_a b + (b_w b + b_wbias b) * dt) in
  let b := b_set_transform b (b_p b) (b_a b) in
  upd_bias b vzero nzero.

(** body.go:249-259, one turn of the loop over (m, i, cog) *)
Definition acc_step (acc : T * T * V) (s : MassInfo T) : T * T * V :=
  let '(bm, bi, bc) := acc in
  let m := mi_m s in
  if nzero <? m then
    let msum := bm + m in
    (msum, bi + (m * mi_i s + vdistsq bc (mi_cog s) * (m * bm) / msum), vlerp bc (mi_cog s) (m / msum))
  else acc.
Definition acc_loop (l : list (MassInfo T)) : T * T * V := fold_left acc_step l (nzero, nzero, vzero).
(** body.go:237-265 *)
Definition b_accumulate (b : B) : B :=
  if negb (is_dynamic b) then b else
  let pos := b_position b in
  let '(m, i, c) := acc_loop (b_shapes b) in
  let b := upd_moment (upd_mass (upd_cog b c) m (none_ / m)) i (none_ / i) in
  b_set_position b pos.
(** body.go:442-448 *)
Definition b_add_shape (b : B) (s : MassInfo T) : B :=
  let b := upd_shapes b (b_shapes b ++ [s]) in
  if nzero <? mi_m s then b_accumulate b else b.
(** body.go:554-563, removal of position [k]: the last element takes its place *)
Fixpoint list_set {A} (l : list A) (k : nat) (x : A) : list A :=
  match l, k with [], _ => [] | _ :: t, O => x :: t | h :: t, S k => h :: list_set t k x end.
Definition swap_remove {A} (l : list A) (k : nat) : list A :=
  match List.rev l with
  | [] => []
  | last :: _ => if Nat.ltb k (length l) then List.removelast (list_set l k last) else l
  end.
(** body.go:553-567; [k] is the position found by the search loop *)
Definition b_remove_shape (b : B) (k : nat) : B :=
  match nth_error (b_shapes b) k with
  | None => b
  | Some s =>
    let b := upd_shapes b (swap_remove (b_shapes b) k) in
    if (is_dynamic b && (nzero <? mi_m s))%bool then b_accumulate b else b
  end.
(** shape.go:86-91 Shape.SetMass on the shape at position [k] *)
Definition b_shape_set_mass (b : B) (k : nat) (m : T) : B :=
  match nth_error (b_shapes b) k with
  | None => b
  | Some s =>
    let b := b_activate b in
    b_accumulate (upd_shapes b (list_set (b_shapes b) k (mkMI m (mi_i s) (mi_area s) (mi_cog s))))
  end.
(** circle.go:38-46 and segment.go:40-48 SetRadius, segment.go:62-72 SetEndpoints, poly.go:229-236 SetVertsRaw: the shape at
    position [k] gets a new moment, area and centre (computed in Model/ShapeMass.v) and keeps its mass *)
Definition b_shape_set_geometry (b : B) (k : nat) (i area : T) (cog : V) : B :=
  match nth_error (b_shapes b) k with
  | None => b
  | Some s =>
    let b := upd_shapes b (list_set (b_shapes b) k (mkMI (mi_m s) i area cog)) in
    if nzero <? mi_m s then b_accumulate b else b
  end.
(** body.go:147-177 SetType, the part before the space's structures are touched *)
Definition b_set_type (b : B) (ty : BodyType) : B :=
  if match b_type b, ty with DYNAMIC, DYNAMIC | KINEMATIC, KINEMATIC | STATIC, STATIC => true | _, _ => false end then b else
  let b := upd_idle b (match ty with STATIC => ninf | _ => nzero end) in
  match ty with
  | DYNAMIC => b_accumulate (upd_moment (upd_mass b nzero ninf) nzero ninf)
  | _ => upd_vel (upd_moment (upd_mass b ninf nzero) ninf nzero) vzero nzero
  end.
(** body.go:74-94 *)
Definition b_new (mass moment : T) : B :=
  let b := mkBody nzero nzero nzero nzero vzero vzero vzero vzero nzero nzero nzero
                  t_identity vzero nzero [] nzero in
  b_set_angle (b_set_moment (b_set_mass b mass) moment) nzero.
End BodyFns.
