(** collision.go: the narrow phase.  CollisionInfo.PushContact of everything.go, Shape.Order, Shape.Point and ShapesCollide of shape.go. *)
From Coq Require Import ZArith NArith Bool List.
From Verif Require Import Num.
From Verif.Model Require Import Vector BB Transform Shapes Handlers.
Import ListNotations.
Local Open Scope num_scope.

Section Collision.
Context {T : Type} `{Num T}.
Notation V := (Vec T).

(** the parts of a Shape the narrow phase reads: class with cached data, box, hash id, rotation of its body *)
Record CShape := mkCS { cs_class : Shape T; cs_bb : BB T; cs_hash : N; cs_rot : V }.
(** collision.go:14-22 *)
Record SupportPt := mkSP { sp_p : V; sp_i : N }.
(** collision.go:46-59 *)
Definition poly_support_index (ps : list (Plane T)) (n : V) : nat :=
  snd (fst (fold_left (fun st q => let '(mx, ix, i) := st in let d := vdot (pl_v0 q) n in if mx <? d then (d, i, S i) else (mx, ix, S i)) ps (- ninf, O, O))).
Definition plane0 : Plane T := mkPl vzero vzero.
Definition plane_at (ps : list (Plane T)) (i : nat) : Plane T := nth i ps plane0.
(** collision.go:26-44: the support function chosen by shape class (CircleToPoly etc. choose the one of the class) *)
Definition support_point (s : Shape T) (n : V) : SupportPt :=
  match s with
  | Circle tc _ => mkSP tc 0
  | Segment g => if vdot (sg_tb g) n <? vdot (sg_ta g) n then mkSP (sg_ta g) 0 else mkSP (sg_tb g) 1
  | Poly ps _ => let i := poly_support_index ps n in mkSP (pl_v0 (plane_at ps i)) (N.of_nat i)
  end.
(** shape.go:176-197 *)
Definition shape_point (s : Shape T) (i : N) : SupportPt :=
  match s with
  | Circle tc _ => mkSP tc 0
  | Segment g => if (i =? 0)%N then mkSP (sg_ta g) i else mkSP (sg_tb g) i
  | Poly ps _ => let ix := if (i <? N.of_nat (length ps))%N then N.to_nat i else O in mkSP (pl_v0 (plane_at ps ix)) (N.of_nat ix)
  end.
(** collision.go:210-221 *)
Record Mink := mkMk { mk_a : V; mk_b : V; mk_ab : V; mk_id : N }.
Definition mink (a b : SupportPt) : Mink := mkMk (sp_p a) (sp_p b) (vsub (sp_p b) (sp_p a)) (N.lor (N.shiftl (N.land (sp_i a) 255) 8) (N.land (sp_i b) 255)).
(** collision.go:61-71; [c1], [c2]: the two shapes *)
Definition support (c1 c2 : Shape T) (n : V) : Mink := mink (support_point c1 (vneg n)) (support_point c2 n).
(** collision.go:73-82 *)
Record CPoints := mkCP { cp_a : V; cp_b : V; cp_n : V; cp_d : T; cp_id : N }.
(** collision.go:224-251 *)
Definition closest_points (v0 v1 : Mink) : CPoints :=
  let t := closest_t (mk_ab v0) (mk_ab v1) in
  let p := vlerp_t (mk_ab v0) (mk_ab v1) t in
  let pa := vlerp_t (mk_a v0) (mk_a v1) t in
  let pb := vlerp_t (mk_b v0) (mk_b v1) t in
  let id := N.lor (N.shiftl (N.land (mk_id v0) 65535) 16) (N.land (mk_id v1) 65535) in
  let delta := vsub (mk_ab v1) (mk_ab v0) in
  let n := vnormalize (vrperp delta) in
  let d := vdot n p in
  if (d <=? nzero) || ((- none_ <? t) && (t <? none_)) then mkCP pa pb n d id
  else let d2 := vlen p in mkCP pa pb (vmult p (none_ / (d2 + nlit 1 1000000000000000))) d2 id.

(** collision.go:8-12 *)
Definition maxGjk : nat := 30.
Definition maxEpa : nat := 30.

(** collision.go:427-445: the edge of the hull nearest to the origin (index of its first point) *)
Definition hull_pairs (hull : list Mink) (d0 : Mink) : list (nat * (Mink * Mink)) :=
  combine ((length hull - 1)%nat :: seq 0 (length hull)) (loop d0 hull).
Definition epa_min (hull : list Mink) (d0 : Mink) : nat :=
  snd (fold_left (fun st e => let d := closest_dist (mk_ab (fst (snd e))) (mk_ab (snd (snd e))) in if d <? fst st then (d, fst e) else st) (hull_pairs hull d0) (ninf, O)).
(** collision.go:453-474: [rot] is the hull from mini+1 around to mini; [acc] is hull2 reversed *)
Fixpoint epa_rebuild (p : Mink) (acc : list Mink) (rot : list Mink) : list Mink :=
  match rot with
  | [] => rev acc
  | h1 :: tl =>
    let h2 := match tl with h2 :: _ => mk_ab h2 | [] => mk_ab p end in
    let h0 := mk_ab (hd p acc) in
    epa_rebuild p (if pointgreater h0 h2 (mk_ab h1) then h1 :: acc else acc) tl
  end.
(** collision.go:426-484.  [fuel] bounds the recursion (None: exhausted, shown impossible).
    The flag tells (it is not in the code) that the loop ended for lack of a new point and not at the iteration limit. *)
Fixpoint epa_recurse (fuel : nat) (c1 c2 : Shape T) (hull : list Mink) (iteration : nat) : option (CPoints * bool) :=
  match fuel with
  | O => None
  | S fuel =>
    let d0 := mkMk vzero vzero vzero 0 in
    let mini := epa_min hull d0 in
    let rot := skipn (S mini) hull ++ firstn (S mini) hull in
    let v0 := nth mini hull d0 in
    let v1 := hd d0 rot in
    let p := support c1 c2 (vperp (vsub (mk_ab v1) (mk_ab v0))) in
    let duplicate := (mk_id p =? mk_id v0)%N || (mk_id p =? mk_id v1)%N in
    let more := negb duplicate && pointgreater (mk_ab v0) (mk_ab v1) (mk_ab p) in
    if more && (iteration <? maxEpa)%nat then epa_recurse fuel c1 c2 (epa_rebuild p [p] rot) (S iteration)
    else Some (closest_points v0 v1, negb more)
  end.
(** collision.go:418-422 *)
Definition epa (c1 c2 : Shape T) (v0 v1 v2 : Mink) : option (CPoints * bool) := epa_recurse maxEpa c1 c2 [v0; v1; v2] 1.
(** collision.go:380-413 *)
Fixpoint gjk_recurse (fuel : nat) (c1 c2 : Shape T) (v0 v1 : Mink) (iteration : nat) : option (CPoints * bool) :=
  match fuel with
  | O => None
  | S fuel =>
    if (maxGjk <? iteration)%nat then Some (closest_points v0 v1, false)
    else if pointgreater (mk_ab v1) (mk_ab v0) vzero then gjk_recurse fuel c1 c2 v1 v0 iteration
    else
      let t := closest_t (mk_ab v0) (mk_ab v1) in
      let n := if (- none_ <? t) && (t <? none_) then vperp (vsub (mk_ab v1) (mk_ab v0)) else vneg (vlerp_t (mk_ab v0) (mk_ab v1) t) in
      let p := support c1 c2 n in
      if pointgreater (mk_ab p) (mk_ab v0) vzero && pointgreater (mk_ab v1) (mk_ab p) vzero then epa c1 c2 v0 p v1
      else if checkaxis (mk_ab v0) (mk_ab v1) (mk_ab p) n then Some (closest_points v0 v1, true)
      else if closest_dist (mk_ab v0) (mk_ab p) <? closest_dist (mk_ab p) (mk_ab v1) then gjk_recurse fuel c1 c2 v0 p (S iteration)
      else gjk_recurse fuel c1 c2 p v1 (S iteration)
  end.
(** two calls for every iteration, at most: one of them a flip *)
Definition gjk_fuel : nat := 2 * maxGjk + 1.
(** collision.go:362-375: the two starting points *)
Definition gjk_start (a b : CShape) (id : N) : Mink * Mink :=
  let c1 := cs_class a in let c2 := cs_class b in
  let byte k := N.land (N.shiftr id k) 255 in
  if negb (id =? 0)%N then (mink (shape_point c1 (byte 24%N)) (shape_point c2 (byte 16%N)), mink (shape_point c1 (byte 8%N)) (shape_point c2 (byte 0%N)))
  else let axis := vperp (vsub (bb_center (cs_bb a)) (bb_center (cs_bb b))) in (support c1 c2 axis, support c1 c2 (vneg axis)).
(** collision.go:360-377 *)
Definition gjk (a b : CShape) (id : N) : option (CPoints * bool) :=
  let (v0, v1) := gjk_start a b id in gjk_recurse gjk_fuel (cs_class a) (cs_class b) v0 v1 1.

(** everything.go:113-131: the info, without the shapes; a third contact would be out of range of the array (None) *)
Record CContact := mkCC { cc_r1 : V; cc_r2 : V; cc_hash : N }.
Record CInfo := mkCI { ci_id : N; ci_n : V; ci_arr : list CContact }.
Definition push_contact (info : CInfo) (p1 p2 : V) (h : N) : option CInfo :=
  if (length (ci_arr info) <? 2)%nat then Some (mkCI (ci_id info) (ci_n info) (ci_arr info ++ [mkCC p1 p2 h])) else None.
Definition set_n (info : CInfo) (n : V) : CInfo := mkCI (ci_id info) n (ci_arr info).
Definition set_id (info : CInfo) (i : N) : CInfo := mkCI i (ci_n info) (ci_arr info).
(** collision.go:86-103 *)
Definition circle_to_circle (c1 : V) (r1 : T) (c2 : V) (r2 : T) (info : CInfo) : option CInfo :=
  let mindist := r1 + r2 in
  let delta := vsub c2 c1 in
  let distsq := vlensq delta in
  if distsq <? mindist * mindist then
    let dist := nsqrt distsq in
    let n := if negb (dist =? nzero) then vmult delta (none_ / dist) else mkV none_ nzero in
    push_contact (set_n info n) (vadd c1 (vmult n r1)) (vadd c2 (vmult n (- r2))) 0
  else Some info.
(** the end-cap test on a tangent, which is zero (segment.go:167-168) *)
Definition tangent (n rot : V) : T := vdot n (vrotate vzero rot).
(** collision.go:109-139 *)
Definition circle_to_segment (c : V) (r : T) (g : Seg T) (rot : V) (info : CInfo) : option CInfo :=
  let segDelta := vsub (sg_tb g) (sg_ta g) in
  let closestT := nclamp01 (vdot segDelta (vsub c (sg_ta g)) / vlensq segDelta) in
  let closest := vadd (sg_ta g) (vmult segDelta closestT) in
  let mindist := r + sg_r g in
  let delta := vsub closest c in
  let distsq := vlensq delta in
  if distsq <? mindist * mindist then
    let dist := nsqrt distsq in
    let n := if negb (dist =? nzero) then vmult delta (none_ / dist) else sg_tn g in
    if (negb (closestT =? nzero) || (nzero <=? tangent n rot)) && (negb (closestT =? none_) || (nzero <=? tangent n rot))
    then push_contact (set_n info n) (vadd c (vmult n r)) (vadd closest (vmult n (- sg_r g))) 0
    else Some (set_n info n)
  else Some info.
(** collision.go:253-263 *)
Record CEdge := mkCE { ce_a : V; ce_ha : N; ce_b : V; ce_hb : N; ce_r : T; ce_n : V }.
(** collision.go:265-282 *)
Definition edge_for_segment (g : Seg T) (hid : N) (n : V) : CEdge :=
  if nzero <? vdot (sg_tn g) n then mkCE (sg_ta g) (hash_pair hid 0) (sg_tb g) (hash_pair hid 1) (sg_r g) (sg_tn g)
  else mkCE (sg_tb g) (hash_pair hid 1) (sg_ta g) (hash_pair hid 0) (sg_r g) (vneg (sg_tn g)).
(** collision.go:284-309 (a polygon with no vertices would panic) *)
Definition edge_for_poly (ps : list (Plane T)) (r : T) (hid : N) (n : V) : CEdge :=
  let count := length ps in
  let i1 := poly_support_index ps n in
  let i0 := ((i1 + count - 1) mod count)%nat in
  let i2 := ((i1 + 1) mod count)%nat in
  let h i := hash_pair hid (N.of_nat i) in
  if vdot n (pl_n (plane_at ps i2)) <? vdot n (pl_n (plane_at ps i1))
  then mkCE (pl_v0 (plane_at ps i0)) (h i0) (pl_v0 (plane_at ps i1)) (h i1) r (pl_n (plane_at ps i1))
  else mkCE (pl_v0 (plane_at ps i1)) (h i1) (pl_v0 (plane_at ps i2)) (h i2) r (pl_n (plane_at ps i2)).
(** collision.go:312-351 *)
Definition contact_points (e1 e2 : CEdge) (pts : CPoints) (info : CInfo) : option CInfo :=
  let mindist := ce_r e1 + ce_r e2 in
  if mindist <? cp_d pts then Some info else
  let n := cp_n pts in
  let info := set_n info n in
  let dE1A := vcross (ce_a e1) n in
  let dE1B := vcross (ce_b e1) n in
  let dE2A := vcross (ce_a e2) n in
  let dE2B := vcross (ce_b e2) n in
  let eps := nlit 1 1000000000000000 in
  let e1Denom := none_ / (dE1B - dE1A + eps) in
  let e2Denom := none_ / (dE2B - dE2A + eps) in
  let p1 := vadd (vmult n (ce_r e1)) (vlerp (ce_a e1) (ce_b e1) (nclamp01 ((dE2B - dE1A) * e1Denom))) in
  let p2 := vadd (vmult n (- ce_r e2)) (vlerp (ce_a e2) (ce_b e2) (nclamp01 ((dE1A - dE2A) * e2Denom))) in
  match (if vdot (vsub p2 p1) n <=? nzero then push_contact info p1 p2 (hash_pair (ce_ha e1) (ce_hb e2)) else Some info) with
  | None => None
  | Some info =>
    let p1 := vadd (vmult n (ce_r e1)) (vlerp (ce_a e1) (ce_b e1) (nclamp01 ((dE2A - dE1A) * e1Denom))) in
    let p2 := vadd (vmult n (- ce_r e2)) (vlerp (ce_a e2) (ce_b e2) (nclamp01 ((dE1B - dE2A) * e2Denom))) in
    if vdot (vsub p2 p1) n <=? nzero then push_contact info p1 p2 (hash_pair (ce_hb e1) (ce_ha e2)) else Some info
  end.
(** vector.go:16-18 *)
Definition veq (u v : V) : bool := (vx u =? vx v) && (vy u =? vy v).
(** the end-cap rejections of collision.go:156-159, 190-191 *)
Definition cap_ok_le (p e n rot : V) : bool := negb (veq p e) || (tangent n rot <=? nzero).
Definition cap_ok_ge (p e n rot : V) : bool := negb (veq p e) || (nzero <=? tangent n rot).

(** collision.go:141-162 *)
Definition segment_to_segment (a b : CShape) (g1 g2 : Seg T) (info : CInfo) : option CInfo :=
  match gjk a b (ci_id info) with
  | None => None
  | Some (pts, _) =>
    let info := set_id info (cp_id pts) in
    if sg_r g1 + sg_r g2 <? cp_d pts then Some info
    else if cap_ok_le (cp_a pts) (sg_ta g1) (cp_n pts) (cs_rot a) && cap_ok_le (cp_a pts) (sg_tb g1) (cp_n pts) (cs_rot a) &&
            cap_ok_ge (cp_b pts) (sg_ta g2) (cp_n pts) (cs_rot b) && cap_ok_ge (cp_b pts) (sg_tb g2) (cp_n pts) (cs_rot b)
    then contact_points (edge_for_segment g1 (cs_hash a) (cp_n pts)) (edge_for_segment g2 (cs_hash b) (vneg (cp_n pts))) pts info
    else Some info
  end.
(** collision.go:164-175 *)
Definition circle_to_poly (a b : CShape) (r : T) (ps : list (Plane T)) (pr : T) (info : CInfo) : option CInfo :=
  match gjk a b (ci_id info) with
  | None => None
  | Some (pts, _) =>
    let info := set_id info (cp_id pts) in
    if cp_d pts <=? r + pr then let n := cp_n pts in push_contact (set_n info n) (vadd (cp_a pts) (vmult n r)) (vadd (cp_b pts) (vmult n pr)) 0 else Some info
  end.
(** collision.go:177-194 *)
Definition segment_to_poly (a b : CShape) (g : Seg T) (ps : list (Plane T)) (pr : T) (info : CInfo) : option CInfo :=
  match gjk a b (ci_id info) with
  | None => None
  | Some (pts, _) =>
    let info := set_id info (cp_id pts) in
    let n := cp_n pts in
    if (cp_d pts - sg_r g - pr <=? nzero) && (cap_ok_le (cp_a pts) (sg_ta g) n (cs_rot a) && cap_ok_le (cp_a pts) (sg_tb g) n (cs_rot a))
    then contact_points (edge_for_segment g (cs_hash a) n) (edge_for_poly ps pr (cs_hash b) (vneg n)) pts info else Some info
  end.
(** collision.go:196-207 *)
Definition poly_to_poly (a b : CShape) (ps1 : list (Plane T)) (r1 : T) (ps2 : list (Plane T)) (r2 : T) (info : CInfo) : option CInfo :=
  match gjk a b (ci_id info) with
  | None => None
  | Some (pts, _) =>
    let info := set_id info (cp_id pts) in
    let n := cp_n pts in
    if cp_d pts - r1 - r2 <=? nzero then contact_points (edge_for_poly ps1 r1 (cs_hash a) n) (edge_for_poly ps2 r2 (cs_hash b) (vneg n)) pts info else Some info
  end.
(** shape.go:48-59 *)
Definition order (s : Shape T) : nat := match s with Circle _ _ => 0 | Segment _ => 1 | Poly _ _ => 2 end.
(** collision.go:486-496: the table, indexed by order a + 3 * order b; None: CollisionError panics (or the index is out of range) *)
Inductive CFunc := FCircleToCircle | FCircleToSegment | FSegmentToSegment | FCircleToPoly | FSegmentToPoly | FPolyToPoly | FError.
Definition builtin : list CFunc := [FCircleToCircle; FError; FError; FCircleToSegment; FSegmentToSegment; FError; FCircleToPoly; FSegmentToPoly; FPolyToPoly].
(** the functions' type assertions on the classes; a failed one panics *)
Definition call (f : CFunc) (a b : CShape) (info : CInfo) : option CInfo :=
  match f, cs_class a, cs_class b with
  | FCircleToCircle, Circle c1 r1, Circle c2 r2 => circle_to_circle c1 r1 c2 r2 info
  | FCircleToSegment, Circle c r, Segment g => circle_to_segment c r g (cs_rot b) info
  | FSegmentToSegment, Segment g1, Segment g2 => segment_to_segment a b g1 g2 info
  | FCircleToPoly, Circle _ r, Poly ps pr => circle_to_poly a b r ps pr info
  | FSegmentToPoly, Segment g, Poly ps pr => segment_to_poly a b g ps pr info
  | FPolyToPoly, Poly ps1 r1, Poly ps2 r2 => poly_to_poly a b ps1 r1 ps2 r2 info
  | _, _, _ => None
  end.
(** collision.go:499-518; the flag: the shapes were exchanged *)
Definition collide (a b : CShape) (id : N) : option (bool * CInfo) :=
  let swap := (order (cs_class b) <? order (cs_class a))%nat in
  let (x, y) := if swap then (b, a) else (a, b) in
  match nth_error builtin (order (cs_class x) + order (cs_class y) * 3) with
  | None => None
  | Some f => option_map (pair swap) (call f x y (mkCI id vzero []))
  end.
(** shape.go:241-271 *)
Record CPt := mkPt { pt_a : V; pt_b : V; pt_d : T }.
Definition shapes_collide (a b : CShape) : option (V * list CPt) :=
  match collide a b 0 with
  | None => None
  | Some (swapped, info) =>
    let normal := if swapped then vneg (ci_n info) else ci_n info in
    Some (normal, map (fun c => let d := vdot (vsub (cc_r2 c) (cc_r1 c)) normal in if swapped then mkPt (cc_r2 c) (cc_r1 c) d else mkPt (cc_r1 c) (cc_r2 c) d) (ci_arr info))
  end.
End Collision.
Arguments CShape : clear implicits. Arguments Mink : clear implicits. Arguments CPoints : clear implicits. Arguments CInfo : clear implicits. Arguments CContact : clear implicits. Arguments SupportPt : clear implicits. Arguments CEdge : clear implicits. Arguments CPt : clear implicits.
