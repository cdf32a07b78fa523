# run from /verif: rewrites DESIGN.md from design_head.md and properties.jsonl; then run assumptions.py
import json
props=[json.loads(l) for l in open('properties.jsonl')]
how={
'C01':"generic BB model; F instance; order lemmas for non-NaN floats",
'C02':"same, lattice laws of Go min/max on non-NaN floats",
'C03':"R instance, case analysis on the slab computation",
'C04':"R instance, nearest-point inequality; WrapVect with math.Mod on R as truncated remainder",
'C05':"R instance, nra/field","C06":"R instance, field",
'C07':"body record, op list, invariant by induction over fold_left",
'C08':"fold over shapes, closed form by induction, Permutation invariance",
'C09':"pointer-level hash set (bin heap, table, pool; Model/HashSet.v) refined to a finite map (SpecHash.v), over every history",
'C10':"functional tree + leaf map (Model/BBTree.v), invariant by induction over operation histories, F instance",
'C117':"heap of nodes and pairs with free lists (Model/BBTreeHeap.v) refined operation by operation to the value model: zippers for parent pointers, doubly linked lists for pairs",
'C118':"counting invariant over the refinement of C117: made = in use + in a free list; a new batch is made only when the free list is empty",
'C119':"history of calls (SpecSpace.happened) compared with the membership flags by induction with exec_frame; containers by the Space invariant",
'C120':"refutation: a reachable space with a sleeping pair",
'C121':"SetSensor and SetCollideBodies are operations of the Space model (SpecSpace.exec), so every earlier space theorem quantifies over them too; C29 gives the effect",
'C122':"Model/World.v puts QueryReject and Collide between the trees and the Space model; SpecWorld.v: a space, its index history and its geometry stay in sync; glue from C12, C29, C39, C44",
'C123':"SpecEnergy.v: kinetic energy after an impulse is E + J.v + J K J / 2; every calm solver action moves each accumulated impulse towards the one that stops the relative motion, which cannot pass twice the way; induction over actions, iterations and steps",
'C124':"refuted: witness over R, a bead anchored off its centre of gravity, for every number of iterations",
'C125':"refuted: two witnesses over R",
'C126':"Model/NewPoly.v; the hull is a weakly convex polygon (C47), the region of such a polygon is the hull of its vertices (ray from a vertex leaves through an edge), C45's query then gives distance and depth",
'C127':"refuted: binary64 witness",
'C128':"SpecFrame.v maps every stored quantity to the other frame; rotation commutes with every vector operation of the solver (k_tensor by invariance of its determinant), so each prestep, cached and apply function commutes with the map; induction over links, iterations and steps",
'C129':"SpecDepth.v: displaced sets and robust overlap. Invariant of EPA's polygon: every corner is an extreme difference, consecutive corners turn clockwise about the origin, and their cones cover the plane; inserting the support point keeps it (extreme corners cannot be passed), dropping corners keeps it. At the end the disc up to the nearest edge is in the Minkowski difference. GJK cannot exit before EPA because the origin is interior",
'C130':"binary64 witness through new_poly_shape, evaluated in the kernel",
'C131':"binary64 witness, evaluated in the kernel",
'C132':"from the certificate of C42: the distance is at most that of nearest points, hence at most the sum of the radii when the shapes overlap",
'C133':"EPA ends on an edge of the Minkowski difference (from C129); the support edges in the direction of the normal are nearly perpendicular to it (slope at least the corner bluntness), so one of the two clipped end points is inside the other polygon",
'C134':"both sides are characterised by the members and their boxes: the tree by C11/C16/C96, the hash by C16; the two characterisations are compared",
'C135':"walk of the thread list (C18) with the flag set and restored around the callback, by induction on the fuel; two views by case distinction on the side",
'C136':"algebra (ring, field, nsatz) on the six entries",
'C137':"the 1e-15 in Normalize keeps the cosine strictly inside (-1,1), so the angle is in (0,pi) and its sine positive; then algebra",
'C138':"refuted by computation in binary64, for every acos with acos(1)=0",
'C139':"the call on the tree that does not hold the shape changes nothing, so the calls are a history of moves and reindexings; C96 and C15 apply to it",
'C140':"powers add up; induction on the list of steps",
'C141':"every part of Step with sleep = false keeps the sleeping roots; witness for the rest",
'C142':"algebra for one step; induction on the history",
'C143':"case analysis, generic in the arithmetic; induction on the shapes for the mass",
'C11':"corollary of the C10 invariant",
'C12':"tree with stamps and pair cache; invariant: cache = overlapping pairs among settled leaves",
'C13':"refutation by a concrete F witness",
'C14':"branch-and-bound lemma on trees over R, composed with the shape queries (Model/Query.v)",
'C15':"fold invariant over any visiting order",
'C16':"heap of handles, cells as chains (Model/SpaceHash.v); invariant over histories",
'C17':"ring of buffers with stamps (Model/Contacts.v) refined to one note per pair (SpecContacts.v), every history",
'C18':"list level in the space machine, and pointer level: doubly linked lists (Model/Threads.v) refined to lists (SpecThreads.v)",
'C19':"the same, singly linked lists with one next pointer per body and the recursive filterConstraints",
'C20':"space state machine (Model/Space.v); invariant over histories",'C21':"same",
'C22':"flood fill as reachability; all-or-nothing sleeping",
'C23':"EachBody model with index loop (Model/SpaceCb.v)",'C24':"refuted from three components on; the loop over the shrinking array characterised exactly by an invariant (pre, rest, left-over tail)",
'C25':"refutation witness on the space machine",'C26':"refutation witness on the space machine; circularity for every history at pointer level",
'C27':"lock counter + roused list, invariant over histories",
'C28':"callback list with Go range semantics (Model/PostStep.v)",'C29':"per-pair automaton driven by arbitrary touch histories and callback answers",
'C30':"handler table (Model/Handlers.v over Model/HashSet.v) keyed by unordered pair",'C31':"case analysis of the default functions",
'C32':"refutation witness",'C33':"bit-vector model over N",
'C34':"solver fold over contacts and iterations, F (order only) and R",'C35':"R instance, ring, induction over iterations",
'C36':"R instance, field",'C37':"all ten joints, bounds via Clamp and Vector.Clamp",'C38':"all ten joints, ring",
'C39':"R instance",'C40':"dispatch table, total over ordered class pairs",'C41':"recursion on the iteration counter; antisymmetry of PointGreater incl. NaN",
'C42':"fold invariant; separating certificate by Cauchy-Schwarz",'C43':"R instance plus refutation witness",
'C44':"R instance, convexity",'C45':"R instance",'C46':"R instance, quadratic formula",'C47':"in-place array model (Model/Hull.v); hull theorem over R",
'C48':"sums over cyclic lists",'C49':"multiset (Permutation) of edges as invariant",'C50':"flux at cell edges for every grid",
'C51':"induction over the Douglas-Peucker recursion",'C52':"integration step model",'C53':"refutation witness on F",'C54':"fold over the two indexes",
'C55':"R instance, ring",'C56':"R and F",'C57':"refutation witness and partial positive result",'C58':"Z mod 2^64",
}
grp=[(59,64,"solver split (Model/Solver.v, SpecSolver.v): R instance, per joint"),(65,68,"R instance; per joint for C67/C68"),(69,71,"handler model, proof or witness"),
(72,74,"space machine, invariant over histories"),(75,75,"Model/PostStep.v, witness"),(76,80,"Model/Shapes.v: R proof or witness"),(81,83,"Model/Collision.v: R proof or witness"),
(84,85,"Model/Hull.v, R instance"),(86,86,"Model/SpaceCb.v, witness"),(87,93,"Model/Polyline.v: induction, or witness"),(94,95,"Model/March.v: R proof"),
(96,100,"Model/Query.v over the C10 invariant, or witness"),(101,103,"Model/SpaceHash.v, invariant or witness"),(104,105,"Model/Contacts.v: witness; counting argument over every history"),(106,106,"Model/Threads.v: every state")]
# what else is in a separate file
try: how.update(json.load(open('tools/how.json')))
except FileNotFoundError: pass
def h(i):
    if i in how: return how[i]
    n=int(i[1:])
    for a,b,t in grp:
        if a<=n<=b: return t
    return 'see the Props file'
plan='\n'.join(f"* **{p['id']}** {p['title']} – {h(p['id'])}." for p in props)
s=open('tools/design_head.md').read().replace('@PLAN@',plan)
open('DESIGN.md','w').write(s)
