(** circle.go, segment.go, poly.go (without the hull), the queries of shape.go, and the area/centroid/moment functions of everything.go. *)
From Coq Require Import ZArith Bool List.
From Verif Require Import Num.
From Verif.Model Require Import Vector BB Transform.
Import ListNotations.
Local Open Scope num_scope.

Section Shapes.
Context {T : Type} `{Num T}.
Notation V := (Vec T).

(** everything.go:139-150, without the Shape pointer *)
Record PointInfo := mkPI { pi_point : V; pi_dist : T; pi_grad : V }.
(** everything.go:152-162; [si_hit]: Shape != nil *)
Record SegInfo := mkSI { si_hit : bool; si_point : V; si_normal : V; si_alpha : T }.
(** shape.go:204 *)
Definition blank (b : V) : SegInfo := mkSI false b vzero none_.
(** everything.go:14 *)
Definition magic_epsilon : T := nlit 1 100000.

(** ** circle.go *)
(** circle.go:28-31 *)
Definition circle_cache (c : V) (r : T) (t : Transform T) : V * BB T := let tc := t_point t c in (tc, bb_circle tc r).
(** circle.go:51-65 *)
Definition circle_point_query (tc : V) (r : T) (p : V) : PointInfo :=
  let delta := vsub p tc in
  let d := vlen delta in
  mkPI (vadd tc (vmult delta (r / d))) (d - r) (if magic_epsilon <? d then vmult delta (none_ / d) else mkV nzero none_).
(** circle.go:71-92 *)
Definition circle_segment_query (center : V) (r1 : T) (a b : V) (r2 : T) (info : SegInfo) : SegInfo :=
  let da := vsub a center in
  let db := vsub b center in
  let rsum := r1 + r2 in
  let qa := vdot da da - ntwo * vdot da db + vdot db db in
  let qb := vdot da db - vdot da da in
  let det := qb * qb - qa * (vdot da da - rsum * rsum) in
  if nzero <=? det then
    let t := (- qb - nsqrt det) / qa in
    if (nzero <=? t) && (t <=? none_) then
      let n := vnormalize (vlerp da db t) in
      mkSI true (vsub (vlerp a b t) (vmult n r2)) n t
    else info
  else info.

(** ** segment.go *)
(** segment.go:3-11 (the tangents, set by SetNeighbors in Chipmunk, stay zero here) *)
Record Seg := mkSeg { sg_a : V; sg_b : V; sg_n : V; sg_ta : V; sg_tb : V; sg_tn : V; sg_r : T }.
(** segment.go:157-171 *)
Definition new_segment (a b : V) (r : T) : Seg := mkSeg a b (vrperp (vnormalize (vsub b a))) vzero vzero vzero r.
(** segment.go:62-65 (the mass info is in Model/Body.v) *)
Definition seg_set_endpoints (s : Seg) (a b : V) : Seg := mkSeg a b (vperp (vnormalize (vsub b a))) (sg_ta s) (sg_tb s) (sg_tn s) (sg_r s).
(** segment.go:13-38 *)
Definition seg_cache (s : Seg) (t : Transform T) : Seg * BB T :=
  let ta := t_point t (sg_a s) in
  let tb := t_point t (sg_b s) in
  let tn := t_vect t (sg_n s) in
  let (l, r) := if vx ta <? vx tb then (vx ta, vx tb) else (vx tb, vx ta) in
  let (b, t) := if vy ta <? vy tb then (vy ta, vy tb) else (vy tb, vy ta) in
  (mkSeg (sg_a s) (sg_b s) (sg_n s) ta tb tn (sg_r s), mkBB (l - sg_r s) (b - sg_r s) (r + sg_r s) (t + sg_r s)).
(** segment.go:86-110; the gradient falls back to the untransformed normal *)
Definition seg_point_query (s : Seg) (p : V) : PointInfo :=
  let closest := closest_point_on_segment p (sg_ta s) (sg_tb s) in
  let delta := vsub p closest in
  let d := vlen delta in
  let g := vmult delta (none_ / d) in
  mkPI (if d =? nzero then closest else vadd closest (vmult g (sg_r s))) (d - sg_r s) (if magic_epsilon <? d then g else sg_n s).
(** segment.go:112-155; [info1], [info2] start blank *)
Definition seg_segment_query (s : Seg) (a b : V) (r2 : T) (info : SegInfo) : SegInfo :=
  let n := sg_tn s in
  let d := vdot (vsub (sg_ta s) a) n in
  let r := sg_r s + r2 in
  let fl := if nzero <? d then vneg n else n in
  let off := vsub (vmult fl r) a in
  let sa := vadd (sg_ta s) off in
  let sb := vadd (sg_tb s) off in
  let delta := vsub b a in
  if vcross delta sa * vcross delta sb <=? nzero then
    let doff := if nzero <? d then d - r else d + r in
    let ad := - doff in
    let bd := vdot delta n - doff in
    if ad * bd <? nzero then
      let t := ad / (ad - bd) in
      mkSI true (vsub (vlerp a b t) (vmult fl r2)) fl t
    else info
  else if negb (r =? nzero) then
    let i1 := circle_segment_query (sg_ta s) (sg_r s) a b r2 (blank b) in
    let i2 := circle_segment_query (sg_tb s) (sg_r s) a b r2 (blank b) in
    if si_alpha i1 <? si_alpha i2 then i1 else i2
  else info.

(** ** poly.go *)
(** everything.go:164-166 *)
Record Plane := mkPl { pl_v0 : V; pl_n : V }.
(** consecutive pairs of a closed loop: (last, first), (first, second), ... *)
Definition loop {A} (d : A) (l : list A) : list (A * A) := combine (last l d :: l) l.
(** poly.go:202-214 (SetVerts): plane i has the edge from vertex i-1 to vertex i *)
Definition poly_planes (vs : list V) : list Plane := map (fun e => mkPl (snd e) (vnormalize (vrperp (vsub (snd e) (fst e))))) (loop vzero vs).
(** poly.go:40-64 *)
Definition poly_transform (t : Transform T) (ps : list Plane) : list Plane := map (fun q => mkPl (t_point t (pl_v0 q)) (t_vect t (pl_n q))) ps.
Definition poly_box (ps : list Plane) (radius : T) : BB T :=
  let l := fold_left (fun m q => nmin m (vx (pl_v0 q))) ps ninf in
  let r := fold_left (fun m q => nmax m (vx (pl_v0 q))) ps (- ninf) in
  let b := fold_left (fun m q => nmin m (vy (pl_v0 q))) ps ninf in
  let t := fold_left (fun m q => nmax m (vy (pl_v0 q))) ps (- ninf) in
  mkBB (l - radius) (b - radius) (r + radius) (t + radius).
Definition poly_cache (ps : list Plane) (radius : T) (t : Transform T) : list Plane * BB T := let d := poly_transform t ps in (d, poly_box d radius).
(** poly.go:66-110: the state of the loop is (v0, minDist, closestPoint, closestNormal, outside) *)
Definition pq_step (p : V) (st : V * T * V * V * bool) (q : Plane) : V * T * V * V * bool :=
  let '(v0, md, cp, cn, out) := st in
  let v1 := pl_v0 q in
  let out := if out then true else nzero <? vdot (pl_n q) (vsub p v1) in
  let closest := closest_point_on_segment p v0 v1 in
  let dist := vdist p closest in
  if dist <? md then (v1, dist, closest, pl_n q, out) else (v1, md, cp, cn, out).
Definition poly_point_query (ps : list Plane) (r : T) (p : V) : PointInfo :=
  let '(_, md, cp, cn, out) := fold_left (pq_step p) ps (pl_v0 (last ps (mkPl vzero vzero)), ninf, vzero, vzero, false) in
  let dist := if out : bool then md else - md in
  let g := vmult (vsub p cp) (none_ / dist) in
  mkPI (vadd cp (vmult g r)) (dist - r) (if magic_epsilon <? md then g else cn).
(** poly.go:112-158 *)
Definition sq_plane (a b : V) (r rsum r2 : T) (info : SegInfo) (e : Plane * Plane) : SegInfo :=
  let (prev, q) := e in
  let n := pl_n q in
  let an := vdot a n in
  let d := an - vdot (pl_v0 q) n - rsum in
  if d <? nzero then info else
  let bn := vdot b n in
  let t := d / (an - bn) in
  if (t <? nzero) || (none_ <? t) then info else
  let point := vlerp a b t in
  let dt := vcross n point in
  let dtmin := vcross n (pl_v0 prev) in
  let dtmax := vcross n (pl_v0 q) in
  if (dtmin <=? dt) && (dt <=? dtmax) then mkSI true (vsub (vlerp a b t) (vmult n r2)) n t else info.
Definition poly_segment_query (ps : list Plane) (r : T) (a b : V) (r2 : T) (info : SegInfo) : SegInfo :=
  let rsum := r + r2 in
  let info := fold_left (sq_plane a b r rsum r2) (loop (mkPl vzero vzero) ps) info in
  if nzero <? rsum then
    fold_left (fun info q => let ci := circle_segment_query (pl_v0 q) r a b r2 (blank b) in if si_alpha ci <? si_alpha info then ci else info) ps info
  else info.

(** ** shape.go *)
(** a shape with its cached world data *)
Inductive Shape := Circle (tc : V) (r : T) | Segment (s : Seg) | Poly (ps : list Plane) (r : T).
(** shape.go:195-199 *)
Definition point_query (s : Shape) (p : V) : PointInfo :=
  match s with Circle c r => circle_point_query c r p | Segment s => seg_point_query s p | Poly ps r => poly_point_query ps r p end.
Definition class_segment_query (s : Shape) (a b : V) (r2 : T) (info : SegInfo) : SegInfo :=
  match s with Circle c r => circle_segment_query c r a b r2 info | Segment s => seg_segment_query s a b r2 info | Poly ps r => poly_segment_query ps r a b r2 info end.
(** shape.go:201-221 *)
Definition segment_query (s : Shape) (a b : V) (radius : T) : SegInfo :=
  let nearest := point_query s a in
  if pi_dist nearest <=? radius then mkSI true b (vnormalize (vsub a (pi_point nearest))) nzero
  else class_segment_query s a b radius (blank b).

(** ** everything.go: polygons *)
Definition sum (l : list T) : T := fold_left nadd l nzero.
(** consecutive pairs (v_i, v_{i+1}) with wrap-around, in the order of the loops *)
Definition edges (vs : list V) : list (V * V) := match vs with [] => [] | v :: tl => combine vs (tl ++ [v]) end.
(** everything.go:229-233 *)
Definition moment_for_segment (mass : T) (a b : V) (r : T) : T :=
  let offset := vlerp a b nhalf in
  let length := vdist b a + ntwo * r in
  mass * ((length * length + nlit 4 1 * r * r) / nlit 12 1 + vlensq offset).
(** everything.go:237-257 *)
Definition moment_for_poly (mass : T) (vs : list V) (offset : V) (r : T) : T :=
  match vs with
  | [v0; v1] => moment_for_segment mass v0 v1 nzero
  | _ =>
    let f e := let v1 := vadd (fst e) offset in let v2 := vadd (snd e) offset in (vcross v2 v1, vdot v1 v1 + vdot v1 v2 + vdot v2 v2) in
    let s1 := sum (map (fun e => let (a, b) := f e in a * b) (edges vs)) in
    let s2 := sum (map (fun e => fst (f e)) (edges vs)) in
    (mass * s1) / (nlit 6 1 * s2)
  end.
Context `{Trig T}.
(** everything.go:266-268 *)
Definition area_for_segment (a b : V) (r : T) : T := r * (npi * r + ntwo * vdist a b).
(** everything.go:273-285 *)
Definition area_for_poly (vs : list V) (r : T) : T :=
  let area := sum (map (fun e => vcross (fst e) (snd e)) (edges vs)) in
  let perimeter := sum (map (fun e => vdist (fst e) (snd e)) (edges vs)) in
  r * (npi * nabs r + perimeter) + area / ntwo.
(** everything.go:288-302 *)
Definition centroid_for_poly (vs : list V) : V :=
  let s := sum (map (fun e => vcross (fst e) (snd e)) (edges vs)) in
  let vs' := fold_left vadd (map (fun e => vmult (vadd (fst e) (snd e)) (vcross (fst e) (snd e))) (edges vs)) vzero in
  vmult vs' (none_ / (nlit 3 1 * s)).
End Shapes.
Arguments PointInfo : clear implicits. Arguments SegInfo : clear implicits. Arguments Seg : clear implicits. Arguments Plane : clear implicits. Arguments Shape : clear implicits.
