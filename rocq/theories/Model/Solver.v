(** The impulse solver: contacts (arbiter.go, everything.go) and the ten constraint
    types (constraint.go and one file per joint).

    A constraint or arbiter acts on two distinct bodies [a] and [b]; the Go code
    mutates them through pointers, the model returns the updated pair.  Callbacks
    (PreSolve, PostSolve) are outside this file. *)
From Coq Require Import ZArith Bool List.
From Verif Require Import Num.
From Verif.Model Require Import Vector BB Transform Body.
Import ListNotations.
Local Open Scope num_scope.

(** everything.go:85-95; the hash only matters for [arb_update] *)
Record Contact (T : Type) := mkCon {
  c_r1 : Vec T; c_r2 : Vec T; c_nMass : T; c_tMass : T; c_bounce : T;
  c_jnAcc : T; c_jtAcc : T; c_jBias : T; c_bias : T; c_hash : Z }.
Arguments mkCon {T}. Arguments c_r1 {T}. Arguments c_r2 {T}. Arguments c_nMass {T}. Arguments c_tMass {T}.
Arguments c_bounce {T}. Arguments c_jnAcc {T}. Arguments c_jtAcc {T}. Arguments c_jBias {T}. Arguments c_bias {T}. Arguments c_hash {T}.

(** arbiter.go:11-32, the numeric part. [ar_state] is the state enum of everything.go:20-32. *)
Inductive ArbState := FirstCollision | Normal | Ignored | Cached | Invalidated.
Record Arb (T : Type) := mkArb {
  ar_e : T; ar_u : T; ar_surf : Vec T; ar_n : Vec T; ar_contacts : list (Contact T);
  ar_swapped : bool; ar_state : ArbState }.
Arguments mkArb {T}. Arguments ar_e {T}. Arguments ar_u {T}. Arguments ar_surf {T}. Arguments ar_n {T}.
Arguments ar_contacts {T}. Arguments ar_swapped {T}. Arguments ar_state {T}.

(** everything.go:195-197 *)
Record Mat2x2 (T : Type) := mkM { m_a : T; m_b : T; m_c : T; m_d : T }.
Arguments mkM {T}. Arguments m_a {T}. Arguments m_b {T}. Arguments m_c {T}. Arguments m_d {T}.

Section Solver.
Context {T : Type} `{Num T}.
Notation V := (Vec T).
Notation B := (Body T).

(** everything.go:200-202 *)
Definition mat_transform (m : Mat2x2 T) (v : V) : V :=
  mkV (vx v * m_a m + vy v * m_b m) (vx v * m_c m + vy v * m_d m).
(** arbiter.go:326-336 *)
Definition apply_impulses (a b : B) (r1 r2 j : V) : B * B :=
  let b' := upd_vel b (mkV (vx (b_v b) + vx j * b_minv b) (vy (b_v b) + vy j * b_minv b))
                      (b_w b + b_iinv b * (vx r2 * vy j - vy r2 * vx j)) in
  let j := mkV (- vx j) (- vy j) in
  let a' := upd_vel a (mkV (vx (b_v a) + vx j * b_minv a) (vy (b_v a) + vy j * b_minv a))
                      (b_w a + b_iinv a * (vx r1 * vy j - vy r1 * vx j)) in
  (a', b').
(** arbiter.go:344-354 *)
Definition apply_bias_impulses (a b : B) (r1 r2 j : V) : B * B :=
  let b' := upd_bias b (mkV (vx (b_vbias b) + vx j * b_minv b) (vy (b_vbias b) + vy j * b_minv b))
                       (b_wbias b + b_iinv b * (vx r2 * vy j - vy r2 * vx j)) in
  let j := mkV (- vx j) (- vy j) in
  let a' := upd_bias a (mkV (vx (b_vbias a) + vx j * b_minv a) (vy (b_vbias a) + vy j * b_minv a))
                       (b_wbias a + b_iinv a * (vx r1 * vy j - vy r1 * vx j)) in
  (a', b').
(** arbiter.go:356-358 *)
Definition relative_velocity (a b : B) (r1 r2 : V) : V :=
  vsub (vadd (vmult (vperp r2) (b_w b)) (b_v b)) (vadd (vmult (vperp r1) (b_w a)) (b_v a)).
(** everything.go:339-342 *)
Definition k_scalar_body (b : B) (r n : V) : T :=
  let rcn := vcross r n in b_minv b + b_iinv b * rcn * rcn.
(** everything.go:344-346 *)
Definition k_scalar (a b : B) (r1 r2 n : V) : T := k_scalar_body a r1 n + k_scalar_body b r2 n.
(** everything.go:348-350 *)
Definition normal_relative_velocity (a b : B) (r1 r2 n : V) : T := vdot (relative_velocity a b r1 r2) n.
(** everything.go:352-390 (the assertion det <> 0 is a no-op in release builds) *)
Definition k_tensor (a b : B) (r1 r2 : V) : Mat2x2 T :=
  let m_sum := b_minv a + b_minv b in
  let r1xsq := vx r1 * vx r1 * b_iinv a in
  let r1ysq := vy r1 * vy r1 * b_iinv a in
  let r1nxy := - vx r1 * vy r1 * b_iinv a in
  let k11 := m_sum + r1ysq in
  let k12 := nzero + r1nxy in
  let k21 := nzero + r1nxy in
  let k22 := m_sum + r1xsq in
  let r2xsq := vx r2 * vx r2 * b_iinv b in
  let r2ysq := vy r2 * vy r2 * b_iinv b in
  let r2nxy := - vx r2 * vy r2 * b_iinv b in
  let k11 := k11 + r2ysq in
  let k12 := k12 + r2nxy in
  let k21 := k21 + r2nxy in
  let k22 := k22 + r2xsq in
  let det := k11 * k22 - k12 * k21 in
  let det_inv := none_ / det in
  mkM (k22 * det_inv) (- k12 * det_inv) (- k21 * det_inv) (k11 * det_inv).

(** ** Contacts *)
(** arbiter.go:132-161, one contact *)
Definition contact_step (n surf : V) (friction : T) (a b : B) (con : Contact T) : B * B * Contact T :=
  let nMass := c_nMass con in
  let r1 := c_r1 con in
  let r2 := c_r2 con in
  let vb1 := vadd (b_vbias a) (vmult (vperp r1) (b_wbias a)) in
  let vb2 := vadd (b_vbias b) (vmult (vperp r2) (b_wbias b)) in
  let vr := vadd (relative_velocity a b r1 r2) surf in
  let vbn := vdot (vsub vb2 vb1) n in
  let vrn := vdot vr n in
  let vrt := vdot vr (vperp n) in
  let jbn := (c_bias con - vbn) * nMass in
  let jbnOld := c_jBias con in
  let jBias := nmax (jbnOld + jbn) nzero in
  let jn := - (c_bounce con + vrn) * nMass in
  let jnOld := c_jnAcc con in
  let jnAcc := nmax (jnOld + jn) nzero in
  let jtMax := friction * jnAcc in
  let jt := - vrt * c_tMass con in
  let jtOld := c_jtAcc con in
  let jtAcc := nclamp (jtOld + jt) (- jtMax) jtMax in
  let '(a, b) := apply_bias_impulses a b r1 r2 (vmult n (jBias - jbnOld)) in
  let '(a, b) := apply_impulses a b r1 r2 (vrotate n (mkV (jnAcc - jnOld) (jtAcc - jtOld))) in
  (a, b, mkCon r1 r2 nMass (c_tMass con) (c_bounce con) jnAcc jtAcc jBias (c_bias con) (c_hash con)).
Fixpoint contacts_step (n surf : V) (friction : T) (a b : B) (l : list (Contact T)) : B * B * list (Contact T) :=
  match l with
  | [] => (a, b, [])
  | c :: l => let '(a, b, c) := contact_step n surf friction a b c in
              let '(a, b, l) := contacts_step n surf friction a b l in (a, b, c :: l)
  end.
Definition arb_with (arb : Arb T) (l : list (Contact T)) : Arb T :=
  mkArb (ar_e arb) (ar_u arb) (ar_surf arb) (ar_n arb) l (ar_swapped arb) (ar_state arb).
(** arbiter.go:125-162 *)
Definition arb_apply_impulse (arb : Arb T) (a b : B) : Arb T * B * B :=
  let '(a, b, l) := contacts_step (ar_n arb) (ar_surf arb) (ar_u arb) a b (ar_contacts arb) in
  (arb_with arb l, a, b).
(** arbiter.go:113-123 *)
Definition arb_apply_cached (arb : Arb T) (dt_coef : T) (a b : B) : B * B :=
  match ar_state arb with
  | FirstCollision => (a, b)
  | _ => fold_left (fun '(a, b) con =>
           let j := vrotate (ar_n arb) (mkV (c_jnAcc con) (c_jtAcc con)) in
           apply_impulses a b (c_r1 con) (c_r2 con) (vmult j dt_coef)) (ar_contacts arb) (a, b)
  end.
(** arbiter.go:168-189 *)
Definition con_prestep (arb : Arb T) (dt slop bias : T) (a b : B) (con : Contact T) : Contact T :=
  let n := ar_n arb in
  let bodyDelta := vsub (b_p b) (b_p a) in
  let dist := vdot (vadd (vsub (c_r2 con) (c_r1 con)) bodyDelta) n in
  mkCon (c_r1 con) (c_r2 con) (none_ / k_scalar a b (c_r1 con) (c_r2 con) n)
        (none_ / k_scalar a b (c_r1 con) (c_r2 con) (vperp n))
        (normal_relative_velocity a b (c_r1 con) (c_r2 con) n * ar_e arb)
        (c_jnAcc con) (c_jtAcc con) nzero (- bias * nmin nzero (dist + slop) / dt) (c_hash con).
Definition arb_prestep (arb : Arb T) (dt slop bias : T) (a b : B) : Arb T :=
  arb_with arb (map (con_prestep arb dt slop bias a b) (ar_contacts arb)).
(** arbiter.go:201-226: the contacts handed over by the narrow phase, made relative and
    warm started from the old contact with the same hash (the last one that matches) *)
Definition inherit (old : list (Contact T)) (h : Z) : T * T :=
  fold_left (fun acc o => if (h =? c_hash o)%Z then (c_jnAcc o, c_jtAcc o) else acc) old (nzero, nzero).
Definition con_update (pa pb : V) (old : list (Contact T)) (con : Contact T) : Contact T :=
  let '(jn, jt) := inherit old (c_hash con) in
  mkCon (vsub (c_r1 con) pa) (vsub (c_r2 con) pb) (c_nMass con) (c_tMass con) (c_bounce con) jn jt (c_jBias con) (c_bias con) (c_hash con).
(** arbiter.go:191-237 and 255-258 (the handler lookup, 239-253, is in Model/Handlers.v);
    [ea ua sa] are the shape's elasticity, friction and surface velocity *)
Definition arb_update (arb : Arb T) (n : V) (arr : list (Contact T)) (pa pb : V) (ea ua : T) (sa : V) (eb ub : T) (sb : V)
   (swapped : bool) : Arb T :=
  let surfaceVr := vsub sb sa in
  mkArb (ea * eb) (ua * ub) (vsub surfaceVr (vmult n (vdot surfaceVr n))) n
        (map (con_update pa pb (ar_contacts arb)) arr) swapped
        (match ar_state arb with Cached => FirstCollision | s => s end).
(** arbiter.go:424-429 *)
Definition arb_count (arb : Arb T) : nat :=
  match ar_state arb with Cached | Invalidated => 0 | _ => length (ar_contacts arb) end.
(** arbiter.go:409-422 *)
Definition arb_total_impulse (arb : Arb T) : V :=
  let sum := fold_left (fun s con => vadd s (vrotate (ar_n arb) (mkV (c_jnAcc con) (c_jtAcc con))))
                       (firstn (arb_count arb) (ar_contacts arb)) vzero in
  if ar_swapped arb then sum else vneg sum.
(** arbiter.go:457-471: a point set is the normal and the list of (PointA, PointB, Distance) *)
Definition PointSet : Type := V * list (V * V * T).
(** arbiter.go:474-503 *)
Definition arb_point_set (arb : Arb T) (a b : B) : PointSet :=
  let n := ar_n arb in
  (if ar_swapped arb then vneg n else n,
   map (fun con => let p1 := vadd (b_p a) (c_r1 con) in
                   let p2 := vadd (b_p b) (c_r2 con) in
                   let d := vdot (vsub p2 p1) n in
                   if ar_swapped arb then (p2, p1, d) else (p1, p2, d))
       (firstn (arb_count arb) (ar_contacts arb))).
(** arbiter.go:508-531; contacts beyond the set's count keep their points (the release-build assertion 510 is a no-op) *)
Fixpoint set_points (swapped : bool) (pa pb : V) (cons : list (Contact T)) (pts : list (V * V * T)) : list (Contact T) :=
  match cons, pts with
  | con :: cs, (p1, p2, _) :: ps =>
    let '(r1, r2) := if swapped then (vsub p2 pa, vsub p1 pb) else (vsub p1 pa, vsub p2 pb) in
    mkCon r1 r2 (c_nMass con) (c_tMass con) (c_bounce con) (c_jnAcc con) (c_jtAcc con) (c_jBias con) (c_bias con) (c_hash con)
      :: set_points swapped pa pb cs ps
  | cs, _ => cs
  end.
Definition arb_set_point_set (arb : Arb T) (a b : B) (s : PointSet) : Arb T :=
  let '(normal, pts) := s in
  mkArb (ar_e arb) (ar_u arb) (ar_surf arb) (if ar_swapped arb then vneg normal else normal)
    (set_points (ar_swapped arb) (b_p a) (b_p b) (ar_contacts arb) pts) (ar_swapped arb) (ar_state arb).

(** ** Constraints *)
(** constraint.go:16-29: the parameters the solver reads *)
Record Params := mkP { maxForce : T; errorBias : T; maxBias : T }.

(** pinjoint.go:5-12 *)
Record Pin := mkPin { pin_A : V; pin_B : V; pin_dist : T; pin_r1 : V; pin_r2 : V; pin_n : V; pin_nMass : T; pin_jnAcc : T; pin_bias : T }.
(** pivotjoint.go:3-11 *)
Record Pivot := mkPivot { piv_A : V; piv_B : V; piv_r1 : V; piv_r2 : V; piv_k : Mat2x2 T; piv_jAcc : V; piv_bias : V }.
(** slidejoint.go:5-15 *)
Record Slide := mkSlide { sl_A : V; sl_B : V; sl_min : T; sl_max : T; sl_r1 : V; sl_r2 : V; sl_n : V; sl_nMass : T; sl_jnAcc : T; sl_bias : T }.
(** groovejoint.go:3-15 *)
Record Groove := mkGroove { gr_n : V; gr_a : V; gr_b : V; gr_B : V; gr_tn : V; gr_clamp : T; gr_r1 : V; gr_r2 : V; gr_k : Mat2x2 T; gr_jAcc : V; gr_bias : V }.
(** gearjoint.go:5-13 *)
Record Gear := mkGear { ge_phase : T; ge_ratio : T; ge_ratio_inv : T; ge_iSum : T; ge_bias : T; ge_jAcc : T }.
(** ratchetjoint.go:5-11 *)
Record Ratchet := mkRatchet { ra_angle : T; ra_phase : T; ra_ratchet : T; ra_iSum : T; ra_bias : T; ra_jAcc : T }.
(** rotarylimitjoint.go:5-11 *)
Record Rotary := mkRotary { ro_min : T; ro_max : T; ro_iSum : T; ro_bias : T; ro_jAcc : T }.
(** simplemotor.go:5-11 *)
Record Motor := mkMotor { mo_rate : T; mo_iSum : T; mo_jAcc : T }.
(** dampedspring.go:7-21; the force callback as a function of the distance *)
Record Spring := mkSpring { sp_A : V; sp_B : V; sp_rest : T; sp_stiff : T; sp_damp : T; sp_force : T -> T;
  sp_target : T; sp_vCoef : T; sp_r1 : V; sp_r2 : V; sp_nMass : T; sp_n : V; sp_jAcc : T }.
(** dampedrotaryspring.go:5-13 *)
Record RSpring := mkRSpring { rs_rest : T; rs_stiff : T; rs_damp : T; rs_torque : T -> T; rs_target : T; rs_wCoef : T; rs_iSum : T; rs_jAcc : T }.

Inductive Joint :=
| JPin (j : Pin) | JPivot (j : Pivot) | JSlide (j : Slide) | JGroove (j : Groove) | JGear (j : Gear)
| JRatchet (j : Ratchet) | JRotary (j : Rotary) | JMotor (j : Motor) | JSpring (j : Spring) | JRSpring (j : RSpring).

(** the pair of lines  a.w -= j*a.i_inv; b.w += j*b.i_inv  of the angular joints *)
Definition spin (a b : B) (j : T) : B * B :=
  (upd_vel a (b_v a) (b_w a - j * b_iinv a), upd_vel b (b_v b) (b_w b + j * b_iinv b)).
(** gearjoint.go:64-65: a.w -= j*a.i_inv*ratio_inv; b.w += j*b.i_inv *)
Definition gear_spin (a b : B) (j ratio_inv : T) : B * B :=
  (upd_vel a (b_v a) (b_w a - j * b_iinv a * ratio_inv), upd_vel b (b_v b) (b_w b + j * b_iinv b)).
(** dampedrotaryspring.go:63-64: a.w += j*a.i_inv; b.w -= j*b.i_inv *)
Definition unspin (a b : B) (j : T) : B * B :=
  (upd_vel a (b_v a) (b_w a + j * b_iinv a), upd_vel b (b_v b) (b_w b - j * b_iinv b)).

(** *** ApplyCachedImpulse *)
(** pinjoint.go:63-66, pivotjoint.go:58-60, slidejoint.go:58-64, groovejoint.go:61-66, gearjoint.go:39-46,
    ratchetjoint.go:56-63, rotarylimitjoint.go:44-51, simplemotor.go:29-36, dampedspring.go:64-66, dampedrotaryspring.go:47-49 *)
Definition j_cached (j : Joint) (dt_coef : T) (a b : B) : B * B :=
  match j with
  | JPin j => apply_impulses a b (pin_r1 j) (pin_r2 j) (vmult (pin_n j) (pin_jnAcc j * dt_coef))
  | JPivot j => apply_impulses a b (piv_r1 j) (piv_r2 j) (vmult (piv_jAcc j) dt_coef)
  | JSlide j => apply_impulses a b (sl_r1 j) (sl_r2 j) (vmult (sl_n j) (sl_jnAcc j * dt_coef))
  | JGroove j => apply_impulses a b (gr_r1 j) (gr_r2 j) (vmult (gr_jAcc j) dt_coef)
  | JGear j => gear_spin a b (ge_jAcc j * dt_coef) (ge_ratio_inv j)
  | JRatchet j => spin a b (ra_jAcc j * dt_coef)
  | JRotary j => spin a b (ro_jAcc j * dt_coef)
  | JMotor j => spin a b (mo_jAcc j * dt_coef)
  | JSpring _ | JRSpring _ => (a, b)
  end.

(** *** ApplyImpulse *)
(** pinjoint.go:68-83 *)
Definition pin_apply (p : Params) (j : Pin) (dt : T) (a b : B) : Pin * B * B :=
  let n := pin_n j in
  let vrn := normal_relative_velocity a b (pin_r1 j) (pin_r2 j) n in
  let jnMax := maxForce p * dt in
  let jn := (pin_bias j - vrn) * pin_nMass j in
  let jnOld := pin_jnAcc j in
  let jnAcc := nclamp (jnOld + jn) (- jnMax) jnMax in
  let jn := jnAcc - jnOld in
  let '(a, b) := apply_impulses a b (pin_r1 j) (pin_r2 j) (vmult n jn) in
  (mkPin (pin_A j) (pin_B j) (pin_dist j) (pin_r1 j) (pin_r2 j) n (pin_nMass j) jnAcc (pin_bias j), a, b).
(** pivotjoint.go:62-79 *)
Definition pivot_apply (p : Params) (j : Pivot) (dt : T) (a b : B) : Pivot * B * B :=
  let vr := relative_velocity a b (piv_r1 j) (piv_r2 j) in
  let im := mat_transform (piv_k j) (vsub (piv_bias j) vr) in
  let jOld := piv_jAcc j in
  let jAcc := vclamp (vadd (piv_jAcc j) im) (maxForce p * dt) in
  let im := vsub jAcc jOld in
  let '(a, b) := apply_impulses a b (piv_r1 j) (piv_r2 j) im in
  (mkPivot (piv_A j) (piv_B j) (piv_r1 j) (piv_r2 j) (piv_k j) jAcc (piv_bias j), a, b).
(** slidejoint.go:66-86 *)
Definition slide_apply (p : Params) (j : Slide) (dt : T) (a b : B) : Slide * B * B :=
  if vequal (sl_n j) vzero then (j, a, b) else
  let n := sl_n j in
  let vr := relative_velocity a b (sl_r1 j) (sl_r2 j) in
  let vrn := vdot vr n in
  let jn := (sl_bias j - vrn) * sl_nMass j in
  let jnOld := sl_jnAcc j in
  let jnAcc := nclamp (jnOld + jn) (- maxForce p * dt) nzero in
  let jn := jnAcc - jnOld in
  let '(a, b) := apply_impulses a b (sl_r1 j) (sl_r2 j) (vmult n jn) in
  (mkSlide (sl_A j) (sl_B j) (sl_min j) (sl_max j) (sl_r1 j) (sl_r2 j) n (sl_nMass j) jnAcc (sl_bias j), a, b).
(** groovejoint.go:68-77 *)
Definition groove_constrain (p : Params) (g : Groove) (j : V) (dt : T) : V :=
  let n := gr_tn g in
  let jClamp := if nzero <? gr_clamp g * vcross j n then j else vproject j n in
  vclamp jClamp (maxForce p * dt).
(** groovejoint.go:79-94 *)
Definition groove_apply (p : Params) (j : Groove) (dt : T) (a b : B) : Groove * B * B :=
  let vr := relative_velocity a b (gr_r1 j) (gr_r2 j) in
  let im := mat_transform (gr_k j) (vsub (gr_bias j) vr) in
  let jOld := gr_jAcc j in
  let jAcc := groove_constrain p j (vadd jOld im) dt in
  let im := vsub jAcc jOld in
  let '(a, b) := apply_impulses a b (gr_r1 j) (gr_r2 j) im in
  (mkGroove (gr_n j) (gr_a j) (gr_b j) (gr_B j) (gr_tn j) (gr_clamp j) (gr_r1 j) (gr_r2 j) (gr_k j) jAcc (gr_bias j), a, b).
(** gearjoint.go:48-66 *)
Definition gear_apply (p : Params) (j : Gear) (dt : T) (a b : B) : Gear * B * B :=
  let wr := b_w b * ge_ratio j - b_w a in
  let jMax := maxForce p * dt in
  let im := (ge_bias j - wr) * ge_iSum j in
  let jOld := ge_jAcc j in
  let jAcc := nclamp (jOld + im) (- jMax) jMax in
  let '(a, b) := gear_spin a b (jAcc - jOld) (ge_ratio_inv j) in
  (mkGear (ge_phase j) (ge_ratio j) (ge_ratio_inv j) (ge_iSum j) (ge_bias j) jAcc, a, b).
(** ratchetjoint.go:65-85 *)
Definition ratchet_apply (p : Params) (j : Ratchet) (dt : T) (a b : B) : Ratchet * B * B :=
  if ra_bias j =? nzero then (j, a, b) else
  let wr := b_w b - b_w a in
  let ratchet := ra_ratchet j in
  let jMax := maxForce p * dt in
  let im := - (ra_bias j + wr) * ra_iSum j in
  let jOld := ra_jAcc j in
  let jAcc := nclamp ((jOld + im) * ratchet) nzero (jMax * nabs ratchet) / ratchet in
  let '(a, b) := spin a b (jAcc - jOld) in
  (mkRatchet (ra_angle j) (ra_phase j) ratchet (ra_iSum j) (ra_bias j) jAcc, a, b).
(** rotarylimitjoint.go:53-76 *)
Definition rotary_apply (p : Params) (j : Rotary) (dt : T) (a b : B) : Rotary * B * B :=
  if ro_bias j =? nzero then (j, a, b) else
  let wr := b_w b - b_w a in
  let jMax := maxForce p * dt in
  let im := - (ro_bias j + wr) * ro_iSum j in
  let jOld := ro_jAcc j in
  let jAcc := if ro_bias j <? nzero then nclamp (jOld + im) nzero jMax else nclamp (jOld + im) (- jMax) nzero in
  let '(a, b) := spin a b (jAcc - jOld) in
  (mkRotary (ro_min j) (ro_max j) (ro_iSum j) (ro_bias j) jAcc, a, b).
(** simplemotor.go:38-53 *)
Definition motor_apply (p : Params) (j : Motor) (dt : T) (a b : B) : Motor * B * B :=
  let wr := b_w b - b_w a + mo_rate j in
  let jMax := maxForce p * dt in
  let im := - wr * mo_iSum j in
  let jOld := mo_jAcc j in
  let jAcc := nclamp (jOld + im) (- jMax) jMax in
  let '(a, b) := spin a b (jAcc - jOld) in
  (mkMotor (mo_rate j) (mo_iSum j) jAcc, a, b).
(** dampedspring.go:68-84 *)
Definition spring_apply (j : Spring) (a b : B) : Spring * B * B :=
  let vrn := normal_relative_velocity a b (sp_r1 j) (sp_r2 j) (sp_n j) in
  let vDamp := (sp_target j - vrn) * sp_vCoef j in
  let target := vrn + vDamp in
  let jDamp := vDamp * sp_nMass j in
  let jAcc := sp_jAcc j + jDamp in
  let '(a, b) := apply_impulses a b (sp_r1 j) (sp_r2 j) (vmult (sp_n j) jDamp) in
  (mkSpring (sp_A j) (sp_B j) (sp_rest j) (sp_stiff j) (sp_damp j) (sp_force j) target (sp_vCoef j)
            (sp_r1 j) (sp_r2 j) (sp_nMass j) (sp_n j) jAcc, a, b).
(** dampedrotaryspring.go:51-65 *)
Definition rspring_apply (j : RSpring) (a b : B) : RSpring * B * B :=
  let wrn := b_w a - b_w b in
  let wDamp := (rs_target j - wrn) * rs_wCoef j in
  let target := wrn + wDamp in
  let jDamp := wDamp * rs_iSum j in
  let jAcc := rs_jAcc j + jDamp in
  let '(a, b) := unspin a b jDamp in
  (mkRSpring (rs_rest j) (rs_stiff j) (rs_damp j) (rs_torque j) target (rs_wCoef j) (rs_iSum j) jAcc, a, b).
Definition j_apply (p : Params) (j : Joint) (dt : T) (a b : B) : Joint * B * B :=
  match j with
  | JPin j => let '(j, a, b) := pin_apply p j dt a b in (JPin j, a, b)
  | JPivot j => let '(j, a, b) := pivot_apply p j dt a b in (JPivot j, a, b)
  | JSlide j => let '(j, a, b) := slide_apply p j dt a b in (JSlide j, a, b)
  | JGroove j => let '(j, a, b) := groove_apply p j dt a b in (JGroove j, a, b)
  | JGear j => let '(j, a, b) := gear_apply p j dt a b in (JGear j, a, b)
  | JRatchet j => let '(j, a, b) := ratchet_apply p j dt a b in (JRatchet j, a, b)
  | JRotary j => let '(j, a, b) := rotary_apply p j dt a b in (JRotary j, a, b)
  | JMotor j => let '(j, a, b) := motor_apply p j dt a b in (JMotor j, a, b)
  | JSpring j => let '(j, a, b) := spring_apply j a b in (JSpring j, a, b)
  | JRSpring j => let '(j, a, b) := rspring_apply j a b in (JRSpring j, a, b)
  end.
(** GetImpulse: pinjoint.go:85-87, pivotjoint.go:81-83, slidejoint.go:88-90, groovejoint.go:96-98, gearjoint.go:68-70,
    ratchetjoint.go:87-89, rotarylimitjoint.go:78-80, simplemotor.go:55-57, dampedspring.go:86-88, dampedrotaryspring.go:67-69 *)
Definition j_impulse (j : Joint) : T :=
  match j with
  | JPin j => nabs (pin_jnAcc j) | JPivot j => vlen (piv_jAcc j) | JSlide j => nabs (sl_jnAcc j)
  | JGroove j => vlen (gr_jAcc j) | JGear j => nabs (ge_jAcc j) | JRatchet j => nabs (ra_jAcc j)
  | JRotary j => nabs (ro_jAcc j) | JMotor j => nabs (mo_jAcc j) | JSpring j => sp_jAcc j | JRSpring j => rs_jAcc j
  end.

Context `{Trig T}.
(** *** PreStep *)
(** everything.go:392-394 *)
Definition bias_coef (eb dt : T) : T := none_ - npow eb dt.
(** pinjoint.go:42-61 *)
Definition pin_prestep (p : Params) (j : Pin) (dt : T) (a b : B) : Pin :=
  let r1 := t_vect (b_tr a) (vsub (pin_A j) (b_cog a)) in
  let r2 := t_vect (b_tr b) (vsub (pin_B j) (b_cog b)) in
  let delta := vadd (b_p b) (vsub r2 (vadd (b_p a) r1)) in
  let dist := vlen delta in
  let n := if negb (dist =? nzero) then vmult delta (none_ / dist) else vmult delta (none_ / ninf) in
  mkPin (pin_A j) (pin_B j) (pin_dist j) r1 r2 n (none_ / k_scalar a b r1 r2 n) (pin_jnAcc j)
    (nclamp (- bias_coef (errorBias p) dt * (dist - pin_dist j) / dt) (- maxBias p) (maxBias p)).
(** pivotjoint.go:43-56 *)
Definition pivot_prestep (p : Params) (j : Pivot) (dt : T) (a b : B) : Pivot :=
  let r1 := t_vect (b_tr a) (vsub (piv_A j) (b_cog a)) in
  let r2 := t_vect (b_tr b) (vsub (piv_B j) (b_cog b)) in
  let k := k_tensor a b r1 r2 in
  let delta := vsub (vadd (b_p b) r2) (vadd (b_p a) r1) in
  mkPivot (piv_A j) (piv_B j) r1 r2 k (piv_jAcc j)
    (vclamp (vmult delta (- bias_coef (errorBias p) dt / dt)) (maxBias p)).
(** slidejoint.go:29-56 *)
Definition slide_prestep (p : Params) (j : Slide) (dt : T) (a b : B) : Slide :=
  let r1 := t_vect (b_tr a) (vsub (sl_A j) (b_cog a)) in
  let r2 := t_vect (b_tr b) (vsub (sl_B j) (b_cog b)) in
  let delta := vsub (vadd (b_p b) r2) (vadd (b_p a) r1) in
  let dist := vlen delta in
  let '(pdist, n, jnAcc) :=
    if sl_max j <? dist then (dist - sl_max j, vnormalize delta, sl_jnAcc j)
    else if dist <? sl_min j then (sl_min j - dist, vneg (vnormalize delta), sl_jnAcc j)
    else (nzero, vzero, nzero) in
  mkSlide (sl_A j) (sl_B j) (sl_min j) (sl_max j) r1 r2 n (none_ / k_scalar a b r1 r2 n) jnAcc
    (nclamp (- bias_coef (errorBias p) dt * pdist / dt) (- maxBias p) (maxBias p)).
(** groovejoint.go:29-59 *)
Definition groove_prestep (p : Params) (j : Groove) (dt : T) (a b : B) : Groove :=
  let ta := t_point (b_tr a) (gr_a j) in
  let tb := t_point (b_tr a) (gr_b j) in
  let n := t_vect (b_tr a) (gr_n j) in
  let d := vdot ta n in
  let r2 := t_vect (b_tr b) (vsub (gr_B j) (b_cog b)) in
  let td := vcross (vadd (b_p b) r2) n in
  let '(clamp, r1) :=
    if td <=? vcross ta n then (none_, vsub ta (b_p a))
    else if vcross tb n <=? td then (- none_, vsub tb (b_p a))
    else (nzero, vsub (vadd (vmult (vperp n) (- td)) (vmult n d)) (b_p a)) in
  let k := k_tensor a b r1 r2 in
  let delta := vsub (vadd (b_p b) r2) (vadd (b_p a) r1) in
  mkGroove (gr_n j) (gr_a j) (gr_b j) (gr_B j) n clamp r1 r2 k (gr_jAcc j)
    (vclamp (vmult delta (- bias_coef (errorBias p) dt / dt)) (maxBias p)).
(** gearjoint.go:27-37 *)
Definition gear_prestep (p : Params) (j : Gear) (dt : T) (a b : B) : Gear :=
  mkGear (ge_phase j) (ge_ratio j) (ge_ratio_inv j)
    (none_ / (b_iinv a * ge_ratio_inv j + ge_ratio j * b_iinv b))
    (nclamp (- bias_coef (errorBias p) dt * (b_a b * ge_ratio j - b_a a - ge_phase j) / dt) (- maxBias p) (maxBias p))
    (ge_jAcc j).
(** ratchetjoint.go:28-54 *)
Definition ratchet_prestep (p : Params) (j : Ratchet) (dt : T) (a b : B) : Ratchet :=
  let delta := b_a b - b_a a in
  let diff := ra_angle j - delta in
  let '(pdist, angle) :=
    if nzero <? diff * ra_ratchet j then (diff, ra_angle j)
    else (nzero, nfloor ((delta - ra_phase j) / ra_ratchet j) * ra_ratchet j + ra_phase j) in
  let bias := nclamp (- bias_coef (errorBias p) dt * pdist / dt) (- maxBias p) (maxBias p) in
  mkRatchet angle (ra_phase j) (ra_ratchet j) (none_ / (b_iinv a + b_iinv b)) bias
    (if bias =? nzero then nzero else ra_jAcc j).
(** rotarylimitjoint.go:22-42 *)
Definition rotary_prestep (p : Params) (j : Rotary) (dt : T) (a b : B) : Rotary :=
  let dist := b_a b - b_a a in
  let pdist := if ro_max j <? dist then ro_max j - dist else if dist <? ro_min j then ro_min j - dist else nzero in
  let bias := nclamp (- bias_coef (errorBias p) dt * pdist / dt) (- maxBias p) (maxBias p) in
  mkRotary (ro_min j) (ro_max j) (none_ / (b_iinv a + b_iinv b)) bias (if bias =? nzero then nzero else ro_jAcc j).
(** simplemotor.go:21-27 *)
Definition motor_prestep (j : Motor) (a b : B) : Motor :=
  mkMotor (mo_rate j) (none_ / (b_iinv a + b_iinv b)) (mo_jAcc j).
(** dampedspring.go:90-92 *)
Definition default_spring_force (rest stiff dist : T) : T := (rest - dist) * stiff.
(** dampedspring.go:37-62 *)
Definition spring_prestep (j : Spring) (dt : T) (a b : B) : Spring * B * B :=
  let r1 := t_vect (b_tr a) (vsub (sp_A j) (b_cog a)) in
  let r2 := t_vect (b_tr b) (vsub (sp_B j) (b_cog b)) in
  let delta := vsub (vadd (b_p b) r2) (vadd (b_p a) r1) in
  let dist := vlen delta in
  let n := if negb (dist =? nzero) then vmult delta (none_ / dist) else vmult delta (none_ / ninf) in
  let k := k_scalar a b r1 r2 n in
  let nMass := none_ / k in
  let vCoef := none_ - nexp (- sp_damp j * dt * k) in
  let jAcc := sp_force j dist * dt in
  let '(a, b) := apply_impulses a b r1 r2 (vmult n jAcc) in
  (mkSpring (sp_A j) (sp_B j) (sp_rest j) (sp_stiff j) (sp_damp j) (sp_force j) nzero vCoef r1 r2 nMass n jAcc, a, b).
(** dampedrotaryspring.go:15-17 *)
Definition default_spring_torque (rest stiff rel : T) : T := (rel - rest) * stiff.
(** dampedrotaryspring.go:30-45 *)
Definition rspring_prestep (j : RSpring) (dt : T) (a b : B) : RSpring * B * B :=
  let moment := b_iinv a + b_iinv b in
  let wCoef := none_ - nexp (- rs_damp j * dt * moment) in
  let jSpring := rs_torque j (b_a a - b_a b) * dt in
  let '(a', b') := spin a b jSpring in
  (mkRSpring (rs_rest j) (rs_stiff j) (rs_damp j) (rs_torque j) nzero wCoef (none_ / moment) jSpring, a', b').
Definition j_prestep (p : Params) (j : Joint) (dt : T) (a b : B) : Joint * B * B :=
  match j with
  | JPin j => (JPin (pin_prestep p j dt a b), a, b)
  | JPivot j => (JPivot (pivot_prestep p j dt a b), a, b)
  | JSlide j => (JSlide (slide_prestep p j dt a b), a, b)
  | JGroove j => (JGroove (groove_prestep p j dt a b), a, b)
  | JGear j => (JGear (gear_prestep p j dt a b), a, b)
  | JRatchet j => (JRatchet (ratchet_prestep p j dt a b), a, b)
  | JRotary j => (JRotary (rotary_prestep p j dt a b), a, b)
  | JMotor j => (JMotor (motor_prestep j a b), a, b)
  | JSpring j => let '(j, a, b) := spring_prestep j dt a b in (JSpring j, a, b)
  | JRSpring j => let '(j, a, b) := rspring_prestep j dt a b in (JRSpring j, a, b)
  end.

(** *** Constructors (pinjoint.go:14-40, pivotjoint.go:13-41, slidejoint.go:17-27, groovejoint.go:17-27, gearjoint.go:15-25,
    ratchetjoint.go:13-26, rotarylimitjoint.go:13-20, simplemotor.go:13-19, dampedspring.go:23-35, dampedrotaryspring.go:19-28;
    both bodies present) *)
Definition new_params : Params := mkP ninf (npow (none_ - nlit 1 10) (nlit 60 1)) ninf.
Definition m_zero : Mat2x2 T := mkM nzero nzero nzero nzero.
Definition new_pin (a b : B) (A Bv : V) : Pin :=
  mkPin A Bv (vlen (vsub (t_point (b_tr b) Bv) (t_point (b_tr a) A))) vzero vzero vzero nzero nzero nzero.
Definition new_pivot2 (A Bv : V) : Pivot := mkPivot A Bv vzero vzero m_zero vzero vzero.
Definition new_pivot (a b : B) (pivot : V) : Pivot := new_pivot2 (b_world_to_local a pivot) (b_world_to_local b pivot).
Definition new_slide (A Bv : V) (mn mx : T) : Slide := mkSlide A Bv mn mx vzero vzero vzero nzero nzero nzero.
Definition new_groove (ga gb Bv : V) : Groove :=
  mkGroove (vperp (vnormalize (vsub gb ga))) ga gb Bv vzero nzero vzero vzero m_zero vzero vzero.
Definition new_gear (phase ratio : T) : Gear := mkGear phase ratio (none_ / ratio) nzero nzero nzero.
Definition new_ratchet (a b : B) (phase ratchet : T) : Ratchet := mkRatchet (b_a b - b_a a) phase ratchet nzero nzero nzero.
Definition new_rotary (mn mx : T) : Rotary := mkRotary mn mx nzero nzero nzero.
Definition new_motor (rate : T) : Motor := mkMotor rate nzero nzero.
Definition new_spring (A Bv : V) (rest stiff damp : T) : Spring :=
  mkSpring A Bv rest stiff damp (default_spring_force rest stiff) nzero nzero vzero vzero nzero vzero nzero.
Definition new_rspring (rest stiff damp : T) : RSpring :=
  mkRSpring rest stiff damp (default_spring_torque rest stiff) nzero nzero nzero nzero.
End Solver.
