{
"C01": {
"note": "binary64-exact; also over the reals"
},
"C02": {
"note": "binary64-exact; C02_offset and C02_merged_area are over the reals"
},
"C03": {
"note": "ideal arithmetic; boxes with ordered sides"
},
"C04": {
"note": "membership of ClampVect is binary64-exact; nearest point and WrapVect over the reals"
},
"C05": {
"note": "ideal arithmetic"
},
"C06": {
"note": "ideal arithmetic"
},
"C10": {
"note": "binary64-exact, over every valid history; tree nodes are an inductive type (parent pointers implicit)"
},
"C11": {
"note": "binary64-exact, over every valid history"
},
"C12": {
"note": "binary64-exact, over every valid history, including cached pairs and any iteration order of the leaf set"
},
"C13": {
"note": "false of the code: refuted by a kernel-checked witness (NaN box poisons ancestors)"
},
"C07": {
"note": "ideal arithmetic, every history"
},
"C08": {
"note": "ideal arithmetic, every history without SetMass/SetMoment; shapes with mass <= 0 are ignored as in the code"
},
"C52": {
"note": "ideal arithmetic, any number of steps; kinematic no-op also binary64"
},
"C56": {
"note": "value over the reals; rest case binary64-exact for every mass including infinity and NaN"
},
"C34": {
"note": "ideal arithmetic and binary64-exact (finite non-negative friction and no NaN impulses produced, see statement)"
},
"C35": {
"note": "ideal arithmetic, any sequence of solver actions"
},
"C36": {
"note": "ideal arithmetic; C62 refutes the unconditional version"
},
"C37": {
"note": "ideal arithmetic for all non-spring joints, binary64-exact for scalar joints; C63 refutes the excluded corners"
},
"C38": {
"note": "ideal arithmetic"
},
"C55": {
"note": "ideal arithmetic"
},
"C59": {
"note": "ideal arithmetic; groove joint not included in the exact-target theorems (its impulse is projected)"
},
"C60": {
"note": "ideal arithmetic; C64 refutes the damped rotary spring"
},
"C61": {
"note": "false of the code: refuted by a witness (contact points at different positions, friction impulse)"
},
"C62": {
"note": "false of the code: refuted by a witness (off-centre contact with friction)"
},
"C63": {
"note": "false of the code: refuted by two witnesses"
},
"C64": {
"note": "false of the code: refuted by a witness (damping counted with the wrong sign)"
},
"C09": {
"note": "Pointer-level model (bins in a heap, table slots and next fields as addresses, pooled free list). The callback given to Each/Filter must not touch the set (Filter's callback is a pure predicate here); counters are unbounded."
},
"C65": {
"note": "Real-number model of the solver (Model/Solver.v) and body (Model/Body.v)."
},
"C66": {
"note": "Real-number model of the solver (Model/Solver.v) and body (Model/Body.v)."
},
"C67": {
"note": "Real-number model of the solver (Model/Solver.v) and body (Model/Body.v)."
},
"C68": {
"note": "Real-number model of the solver (Model/Solver.v) and body (Model/Body.v)."
},
"C30": {
"note": "Model/Handlers.v over the pointer-level hash set; user callbacks are oracles that do not touch the arbiter."
},
"C31": {
"note": "Model/Handlers.v over the pointer-level hash set; user callbacks are oracles that do not touch the arbiter."
},
"C32": {
"note": "Model/Handlers.v over the pointer-level hash set; user callbacks are oracles that do not touch the arbiter."
},
"C33": {
"note": "Model/Handlers.v over the pointer-level hash set; user callbacks are oracles that do not touch the arbiter."
},
"C58": {
"note": "Model/Handlers.v over the pointer-level hash set; user callbacks are oracles that do not touch the arbiter."
},
"C69": {
"note": "refuted: false of the code, witness theorem"
},
"C70": {
"note": "refuted: false of the code, witness theorem for every recursion depth"
},
"C71": {
"note": "refuted: false of the code"
},
"C74": {
"note": "False, refuted with a witness: a sleeping contact woken by a collision is appended to the active arbiters in processComponents, solved, and its postSolve is called though the narrow phase did not see the pair in this step."
},
"C24": {
"note": "False for three or more sleeping components (witness): SetGravity ranges over sleepingComponents while Activate deletes from the same backing array. C24_which_stay_asleep says exactly, for any number of components, which ones stay asleep (second, fourth, ..., except the last); C24_at_most_two: all wake if and only if at most two were asleep."
},
"C25": {
"note": "False (witness): SetType changes the type before it calls Activate, so a sleeping body is not woken and its shapes are removed from the dynamic index they are not in."
},
"C22": {
"note": "Components are defined in SpecSpace.v (linked) from contacts and constraints."
},
"C29": {
"note": "The protocol is the automaton accept in SpecSpace.v; C29_separated excludes pairs whose bodies are both static or asleep (their contacts are frozen)."
},
"C23": {
"note": "Callbacks are modelled by the bodies they call Activate on."
},
"C26": {
"note": "False (witness): the deferred activation at the inner Unlock restores the woken bodies' sleeping arbiters into the active list, and processComponents then threads them a second time although they are still in the bodies' lists. C26_pushed_twice_never_ends proves, at pointer level and for every history, that this second push makes both lists circular, so no traversal ends."
},
"C27": {
"note": "Over every sequence of Lock, Unlock and Activate calls under an outer Lock, from any reachable space; the effect of the release equals that of the same Activate calls on the unlocked space."
},
"C28": {
"note": "Whatever the callbacks themselves do with the queue and the lock (prog is arbitrary)."
},
"C75": {
"note": "False: the queue is truncated after the run, so such a registration (which returned true) is dropped; proved for every history that it never runs."
},
"C57": {
"note": "Refuted: SetEndpoints stores Perp of the direction, NewSegment ReversePerp, so the normal is the opposite one (proved for all end points). Box, distance and surface point agree (partial)."
},
"C46": {
"note": "Circles for any radii; segments and polygons without radius. Rounded segments: see C77. Real arithmetic; the query must not be parallel to an edge it starts beyond (over the reals x/0=0; in binary64 the quotient is infinite or NaN and the edge is skipped)."
},
"C45": {
"note": "Real arithmetic. Degenerate query points: C76. Polygons: some boundary point within MaxFloat64 of the query point (the code starts its minimum at MaxFloat64)."
},
"C48": {
"note": "Over R. The integrals are Riemann integrals (Coquelicot) over the triangles the edges form with the origin, and over concentric circles. MomentForCircle's and AreaForCircle's comments call the arguments diameters; they are radii. MomentForPoly of two vertices is a segment's (C110)."
},
"C39": {
"note": "Over the reals; circle/circle for all positions including coincident centres; circle/segment for segments of positive length."
},
"C40": {
"note": "Totality in binary64 (NaN and infinities included) and over the reals, for every cached id. A polygon is taken to have at least one vertex (the code would index an empty slice)."
},
"C41": {
"note": "For every binary64 input including NaN and infinities: the loop's flip cannot happen twice in a row (proved for float arithmetic, FloatFlip.v), all other calls increase the iteration count."
},
"C42": {
"note": "Proved over the reals by an invariant of GJK and of the EPA hull. Hypotheses: 1 to 256 corners, coordinates up to 1e150, the two starting Minkowski points differ (at 0/0 the reals and floats disagree). The reported distance is exact up to the code's own regularisation 1e-15 of Normalize; when the origin is in line with the last edge it is reported as 0 (see C83)."
},
"C43": {
"note": "Over the reals, at most 256 corners with coordinates up to 1e150; a segment's stored normal is at most 1 long (kept by rigid placement, new_segment_sound). Count: binary64, every input."
},
"C81": {
"note": "Refuted in binary64: a unit circle and a segment overlapping by 1/2."
},
"C82": {
"note": "Refuted in binary64: unit circle against a square of rounding 1/2."
},
"C83": {
"note": "Refuted in binary64: [0,1] and [2,3] on the x axis, radius 0."
},
"C53": {
"note": "Refuted in binary64: 0/0 is NaN in ClosestPointOnSegment."
},
"C47": {
"note": "Array-level model: slices are offsets into one array, so the overlap of results and unread points is covered; recursion bounded by fuel, shown never exhausted."
},
"C86": {
"note": "Two reachable witnesses."
},
"C49": {
"note": "binary64 for the edges, NaN and signed zeros included."
},
"C51": {
"note": "The fallback for nearby vertices is refuted separately in C89 (panic) and C90 (endless loop)."
},
"C50": {
"note": "binary64. Negative sample counts are not modelled."
},
"C95": {
"note": "End to end through the model of polyline.go. MarchHard passes cell centres up to twice (the saddle cases), where C87 would allow open polylines; the proof shows the order of emission excludes that."
},
"C14": {
"note": "Rounded segments and polygons only through C14_least_answer: Vector.Normalize shortens unit normals by a relative 1e-15, so their reported hits lie up to that much outside the exact box."
},
"C15": {
"note": "C15_nearest (reals) needs that the index has seen the shapes' current boxes and that no distance exceeds MaxFloat64."
},
"C98": {
"note": "Refuted: the trees are pruned with the unswept segment, so a shape within the radius but whose box the segment misses is lost as soon as the tree has two leaves."
},
"C99": {
"note": "Refuted: anyCollision is overwritten by every contact; a static sensor visited after a solid dynamic shape turns the answer to false."
},
"C100": {
"note": "Refuted: a shape touched exactly at the end (alpha 1) is reported if it is the only one in its tree and pruned otherwise."
},
"C16": {
"note": "Callbacks do not use the hash themselves (a nested query advances the stamp). The recycling of bin structs is not modelled; HashSet is C09."
},
"C101": {
"note": "Refuted for every history: Reindex clears the table and rehashes nothing."
},
"C102": {
"note": "For segments parallel to an axis the start's distance to the grid line must be 0 or at least 1/MaxFloat64 cells. The start on a grid line is C103."
},
"C103": {
"note": "Refuted: leaving a grid line in negative direction the walk is one cell behind and the last cell is never looked at."
},
"C17": {
"note": "Refinement of the pointer-level ring (Model/Contacts.v) to one note per pair (SpecContacts.v), for every moment of every history of whole steps."
},
"C104": {
"note": "Refuted by a six-step history."
},
"C18": {
"note": "At two levels: the space model's lists (SpaceProps) and the pointers themselves (ThreadProps): doubly linked lists through two threads per arbiter represent the list of arbiters pushed and not unthreaded, for every history in which only unthreaded arbiters are pushed or re-initialised."
},
"C19": {
"note": "At two levels: the space model's lists and the pointers next_a/next_b with the recursive filterConstraints."
},
"C106": {
"note": "Refuted for every state: remove_con is the nil dereference whatever the history was."
},
"C108": {
"note": "Refuted for every polygon and every positive radius, not just one witness."
},
"C111": {
"note": "Binary64, for every gravity, damping, time step and any sine and cosine."
},
"C112": {
"note": "Which contacts, joints and bodies take part in each step is arbitrary; default velocity and position functions, no PreSolve/PostSolve hooks."
},
"C114": {
"note": "For every Num instance; with shared immovable bodies over the reals. Contacts found are an input: two groups that come to touch are not isolated."
},
"C116": {
"note": "False when the step length changes: the stored impulse is applied dt/previous dt times but is not rescaled itself. A box at rest receives (0,4) from the ground in a step twice as long as the one before, TotalImpulse says 2. With equal lengths see C60."
},
"C117": {
"note": "Refinement of the pointer model (BBTreeHeap.v) to the value model of C10-C14. Node.pairs lives in the pair heap; the leaf hash set is a finite map (C09)."
},
"C118": {
"note": "Counting invariant on the pointer model: every node and pair made is in a tree, in a pair list or in a free list."
},
"C120": {
"note": "False: sleeping removes the constraint from the space's list (Space.Deactivate), and EachConstraint reads only that list. EachBody does walk the sleeping components; EachConstraint does not."
},
"C122": {
"note": "Composes C10/C12 (trees), C21/C29 (bookkeeping), C39/C44 (geometry). Which calls a space operation makes on the trees is left open (any valid calls after which the trees hold what the space's lists say); that such calls exist is proved. Segments and polygons against each other: contact is what the narrow phase says (C42, C43)."
},
"C123": {
"note": "Over the reals. The hypotheses name what is left out; C124 and C125 show that the groove joint, several elastic contacts and retracted friction do add energy."
},
"C124": {
"note": "False of the code, and of Chipmunk: the impulse computed for both axes is projected on the groove's normal although the effective mass is not isotropic, so a bead whose anchor is off its centre of gravity is pushed across the groove (fixed point of the iteration: -2/3 of its speed) and gains 22 % energy."
},
"C125": {
"note": "False of the code: a flat box with e = 1 and two contacts gains 59 % energy in one iteration; a contact that takes back its normal impulse takes back friction and accelerates the body. True for the cases of C123."
},
"C126": {
"note": "Composes C47 (hull) with C45 (point query); convex_ccw was weakened to admit vertices in the middle of an edge (C85 shows that the hull may keep them), so C44-C46, C96-C98 and C122 now hold for every polygon NewPolyShape makes of points not all in line. Over the reals."
},
"C127": {
"note": "False of the code: the two planes of a two-point polygon only test the side of the line, so a point on the line beyond the end counts as inside (binary64 witness)."
},
"C128": {
"note": "Over the reals; all ten joint types. The contacts reported by collision detection are given (turned) to both runs. Grooves are excepted from shifts because Normalize leaves |n| = 1/(1+1e-15) and the middle branch of PreStep multiplies coordinates measured from the origin by |n|^2: Example groove_shift_matters shows the (tiny) difference."
},
"C129": {
"note": "Over the reals. The polygon EPA keeps always surrounds the origin (clockwise edges whose cones cover the plane); convexity of the polygon is not needed."
},
"C130": {
"note": "Witness in binary64 through NewPolyShape."
},
"C131": {
"note": "Witness in binary64."
},
"C133": {
"note": "Hypotheses: every corner of both polygons well formed (record well_formed), depth d with 4e-15 <= d*k, GJK ended by itself (flag true), centres of the boxes differ in the sense that the first two support points differ."
},
"C134": {
"note": "C134_box_query and C134_step_pairs over binary64 for finite boxes within 2^62 cells; C134_nearest over the reals; C134_switch over both."
},
"C135": {
"note": "The callback may read and may call EachArbiter, but does not change arbiters otherwise. C135_two_views over the reals."
},
"C136": {
"note": "Over the reals."
},
"C137": {
"note": "Over the reals with exact acos and sin; for floating point see C138."
},
"C138": {
"note": "Refuted in binary64: for (100,0) both angles are acos(1)=0, the fraction is 0/0 and the result is NaN, for every acos with acos(1)=0 and every sin."
},
"C139": {
"note": "C139_reindexed and C139_box_query also in binary64 (fattening must not lose part of the box: C10_fat_box); C139_nearest over the reals. Spatial hashes: C16, C101."
},
"C140": {
"note": "About the correction PreStep asks for while it is not limited by MaxBias (C67 per joint; C140_gear makes the connection for one joint)."
},
"C141": {
"note": "Only the first clause holds: C141_step_changes_no_sleep (every state): Step with the threshold at INFINITY puts nobody to sleep and wakes nobody. So the second is false (witness C141_touched_sleeper_refuted): a sleeping body that is hit stays asleep while its contact is solved, and the next step pushes the same arbiter a second time, whether sleeping is still off or on again: the lists become circular (C26_pushed_twice_never_ends, pointer level)."
},
"C142": {
"note": "Over the reals: C142_tick, C142_speed, C142_rest, C142_only_rest, C142_free_fall (a body falling from rest is idle at its first two steps), C142_idle_time and C142_asleep_means_idle for every history. False of binary64 for very heavy bodies (C142_heavy_body_refuted): both sides of the comparison overflow, so a body of mass 2^1023 at fifty times the threshold counts as idle."
},
"C143": {
"note": "The last clause is false (witness C143_there_and_back_refuted, binary64): a body of mass 1 without shape masses that is made kinematic and dynamic again has mass 0 and inverse mass +Inf, and its velocity is NaN after the next update (a debug build asserts). C143_back says what the mass is: that of the shapes, whatever it was. The other clauses are proved in any arithmetic with INFINITY = INFINITY and 0 <> INFINITY, so for binary64 too; the condition is that the shapes' masses do not add up to INFINITY."
}
}