{"id": "C01", "title": "Box intersection is exact and symmetric", "statement": "For boxes with ordered sides, BB.Intersects(a,b) is true exactly when some point belongs to both boxes; the answer does not depend on argument order; ContainsVect/Contains agree with point membership.", "quantifier": "all pairs of boxes with non-NaN float64 sides", "why_tests_cant": "A test samples a handful of float64 coordinates; the claim is about all of them, including boundary equality and signed zeros.", "anchors": ["bb.go:BB.Intersects", "bb.go:BB.Contains", "bb.go:BB.ContainsVect"]}
{"id": "C02", "title": "Merge and Expand give the least enclosing box", "statement": "BB.Merge(a,b) contains a and b and is contained in every box that contains both; Expand(v) is the least box containing the box and v; Contains is a partial order. MergedArea is the area of the merged box, and Offset moves the points of the box by the vector.", "quantifier": "all boxes and vectors with non-NaN float64 coordinates", "why_tests_cant": "A test samples a handful of float64 coordinates; the claim is about all of them, including boundary equality and signed zeros.", "anchors": ["bb.go:BB.Merge", "bb.go:BB.Expand", "bb.go:BB.Contains", "everything.go", "bb.go:BB.MergedArea", "bb.go:BB.Area", "bb.go:BB.Offset"]}
{"id": "C03", "title": "BB.SegmentQuery returns the entry fraction", "statement": "BB.SegmentQuery(a,b) returns the smallest t in [0,1] at which a+t(b-a) is in the box, and INFINITY exactly when the segment misses the box; IntersectsSegment agrees.", "quantifier": "all boxes and segments (ideal arithmetic)", "why_tests_cant": "The claim is geometric and quantifies over all real inputs; a test evaluates a few points.", "anchors": ["bb.go:BB.SegmentQuery", "bb.go:BB.IntersectsSegment"]}
{"id": "C04", "title": "ClampVect is nearest, WrapVect stays in the box", "statement": "BB.ClampVect(v) is in the box and is the closest box point to v; BB.WrapVect(v) lands in the box and differs from v by whole box widths/heights.", "quantifier": "all non-degenerate boxes and vectors", "why_tests_cant": "The claim is geometric and quantifies over all real inputs; a test evaluates a few points.", "anchors": ["bb.go:BB.ClampVect", "bb.go:BB.WrapVect"]}
{"id": "C05", "title": "Vector algebra laws", "statement": "Rotate/Unrotate by a unit vector are inverse isometries; Perp/ReversePerp are inverse quarter turns; Normalize has length at most 1 and keeps direction; Clamp(len) never exceeds len and keeps short vectors; LerpConst never overshoots its target; ClosestPointOnSegment returns a nearest point of the segment.", "quantifier": "all vectors (ideal arithmetic)", "why_tests_cant": "The claim is geometric and quantifies over all real inputs; a test evaluates a few points.", "anchors": ["vector.go", "vector.go:Vector.ClosestT", "vector.go:Vector.ClosestPointOnSegment"]}
{"id": "C06", "title": "Transforms invert and transformed boxes enclose", "statement": "Inverse is a two-sided inverse of any transform with non-zero determinant, Mult is composition, RigidInverse inverts rigid transforms, and Transform.BB(b) contains the image of every point of b and is the least such box.", "quantifier": "all affine transforms, points and boxes (ideal arithmetic)", "why_tests_cant": "The claim is geometric and quantifies over all real inputs; a test evaluates a few points.", "anchors": ["transform.go"]}
{"id": "C07", "title": "Body position and coordinate frames", "statement": "After any history of body calls (SetPosition, SetAngle, mass and shape changes, SetType, forces, impulses, integration, solver velocities): Rotation() is the unit vector of Angle(), LocalToWorld(x) is Position() plus x turned by Angle(), WorldToLocal and LocalToWorld are mutually inverse isometries, Position returns the last position set, SetAngle turns the body about its centre of gravity (which keeps its world position; Position() is unchanged when the centre of gravity is the local origin), mass, shape and type changes never move the body, and VelocityAtLocalPoint agrees with VelocityAtWorldPoint and rigid motion.", "quantifier": "every finite history of calls on a body, every point", "why_tests_cant": "The claim ranges over every finite history of API calls; a test runs a few fixed histories.", "anchors": ["body.go:Body.SetPosition", "body.go:Body.SetAngle", "body.go:Body.SetTransform", "body.go:Body.WorldToLocal", "body.go:Body.LocalToWorld"]}
{"id": "C08", "title": "Mass accumulated from shapes", "statement": "With automatic mass, a dynamic body's mass is the sum of its shapes' masses, its centre of gravity is their mass-weighted mean, its moment follows the parallel-axis theorem about that centre, the result does not depend on the order of shapes, and Position() is unchanged.", "quantifier": "every finite list of shapes with non-negative masses, in every order", "why_tests_cant": "Order independence and the closed form are quantified over lists of arbitrary length.", "anchors": ["body.go:Body.AccumulateMassFromShapes", "circle.go:CircleShapeMassInfo", "shape.go:Shape.SetMass"]}
{"id": "C09", "title": "The hash set behaves as a finite map", "statement": "Under every history of Insert/Remove/Find/Filter/Each/Count that never holds 1610612741 elements, a hash set gives the answers of an abstract finite map keyed by equality class: an element inserted is found until removed, inserting an equal key returns the element already there, Count is the number of elements, Each visits each exactly once, across all resizes and bin recycling; no call panics or loops.", "quantifier": "every operation history, hash function and equality compatible with it", "why_tests_cant": "The claim ranges over every finite history of API calls; a test runs a few fixed histories.", "anchors": ["hashset.go", "hashset_arbiter.go"]}
{"id": "C10", "title": "Every tree history keeps a well-formed bounding tree", "statement": "After any history of Insert/Remove/Reindex on the dynamic tree each inserted object is in exactly one leaf, every node's box contains its children's boxes, leaf boxes contain the object's current box, Count equals the number of objects and Contains/Each agree with the inserted set.", "quantifier": "every finite history of tree operations, all non-NaN float64 boxes", "why_tests_cant": "The claim ranges over every finite history of API calls; a test runs a few fixed histories.", "anchors": ["bbtree.go:BBTree.SubtreeInsert", "bbtree.go:BBTree.SubtreeRemove", "bbtree.go:BBTree.Remove", "bbtree.go:BBTree.LeafUpdate"]}
{"id": "C11", "title": "Box queries are complete and duplicate-free", "statement": "BBTree.Query(bb) calls back for every object whose box intersects bb, at most once per object, and only for objects in the tree whose stored box intersects bb.", "quantifier": "every tree reachable by any history, every non-NaN query box", "why_tests_cant": "The claim ranges over every finite history of API calls; a test runs a few fixed histories.", "anchors": ["bbtree.go:SubtreeQuery", "bbtree.go:BBTree.Query", "space.go:Space.BBQuery"]}
{"id": "C12", "title": "The broad phase reports each overlapping pair once", "statement": "BBTree.ReindexQuery passes each unordered pair of overlapping objects (at least one dynamic) to the callback exactly once per call, also for pairs remembered from earlier steps, after any history of insertions, removals and motion.", "quantifier": "every history of inserts, removes, moves and reindex queries", "why_tests_cant": "The claim ranges over every finite history of API calls; a test runs a few fixed histories.", "anchors": ["bbtree.go:BBTree.ReindexQuery", "bbtree.go:Node.MarkSubtree", "bbtree.go:Node.MarkLeafQuery", "bbtree.go:Leaf.MarkLeaf", "bbtree.go:PairInsert", "bbtree.go:PairsClear"]}
{"id": "C13", "title": "One bad shape does not hide the others", "statement": "If one shape's box has a NaN coordinate, box queries still report every other overlapping shape.", "quantifier": "every set of shapes of which one has a NaN box", "why_tests_cant": "A NaN is a single value among 2^64 and its effect depends on where the leaf sits in the tree.", "anchors": ["bb.go:BB.Merge", "bbtree.go:SubtreeQuery"]}
{"id": "C14", "title": "Segment queries find the nearest hit", "statement": "SegmentQueryFirst without radius returns the first point along the segment that belongs to a non-sensor shape the filter accepts, and that shape; the empty answer only if there is none before the segment's end. (With a positive radius: C98.)", "quantifier": "every history of the two trees, every segment and filter; ideal arithmetic; discs, and thin segments and thin convex polygons in general position. For any shapes and radius whose reported hits lie in their indexed boxes: a least reported hit is returned.", "why_tests_cant": "Pruning is correct only if the bound holds for every tree shape and traversal order.", "anchors": ["space.go:Space.SegmentQueryFirst", "bbtree.go:Node.SubtreeSegmentQuery", "bb.go:BB.SegmentQuery"]}
{"id": "C15", "title": "PointQueryNearest finds the nearest shape", "statement": "PointQueryNearest(p,d,f) returns a non-sensor shape accepted by f whose distance to p is least and below d, with its point query, or an empty result when none is below d, whatever the history and shape of the trees and the visiting order.", "quantifier": "every history of the trees, set of shapes, point, distance and filter. Binary64: among the shapes whose indexed box meets the query box; ideal arithmetic: among all shapes", "why_tests_cant": "Every permutation of every shape list must give the same minimum.", "anchors": ["space.go:Space.PointQueryNearest", "space.go:NearestPointQueryNearest"]}
{"id": "C16", "title": "Spatial hash queries are complete", "statement": "After any history of Insert, Remove, ReindexObject, ReindexQuery, Query and SegmentQuery on a spatial hash: Query calls back exactly once for each object whose box, as last indexed, has a cell hashed to the same slot as a cell of the query box - in particular for every object whose box overlaps it - and never for the object asked for; ReindexQuery calls back exactly once for each pair of objects whose boxes have a slot in common, and for each such pair of a dynamic and a static object; Count and Contains are right; a handle's retain count is the number of references to it, and the pool never holds a handle still in use.", "quantifier": "every operation history, cell size, table size, order of the handle set and behaviour of sync.Pool; overlap to common slot: binary64 within 2^62 cells of the origin, and reals", "why_tests_cant": "The claim ranges over every finite history of API calls; a test runs a few fixed histories.", "anchors": ["spacehash.go"]}
{"id": "C17", "title": "Contact memory is never overwritten while referenced", "statement": "At every moment of every history of steps, collisions, wake-ups, sleeps and removals, what the space reads back as the contacts of a remembered pair of shapes are that pair's own contacts: the points found when the pair last touched, with the impulses since accumulated for that pair. Slots of two remembered pairs never overlap and the array handed out next belongs to none of them. (A pair whose two bodies are static or asleep must have been stored away with them; C104 is the other case.)", "quantifier": "every history of steps with arbitrarily many pairs and contacts, and every moment of it", "why_tests_cant": "The claim ranges over every finite history of API calls; a test runs a few fixed histories.", "anchors": ["contactbuffer.go:ContactBuffer.InitHeader", "space.go:Space.PushFreshContactBuffer", "space.go:Space.ContactBufferGetArray", "space.go:SpaceCollideShapesFunc", "space.go:Space.Activate", "space.go:Space.Deactivate", "arbiter.go:Arbiter.Update", "hashset_arbiter.go:SpaceArbiterSetFilter"]}
{"id": "C18", "title": "Body arbiter lists are exact", "statement": "After any sequence of pushing and unthreading arbiters, EachArbiter visits each arbiter involving the body exactly once and unthreading removes exactly that arbiter from both bodies' lists.", "quantifier": "every history of push and unthread on every set of bodies", "why_tests_cant": "The claim ranges over every finite history of API calls; a test runs a few fixed histories.", "anchors": ["body.go:Body.PushArbiter", "arbiter.go:Arbiter.Unthread", "body.go:Body.EachArbiter"]}
{"id": "C19", "title": "Body constraint lists are exact", "statement": "After any sequence of AddConstraint/RemoveConstraint, a body's EachConstraint visits exactly the constraints in the space that involve it, once each.", "quantifier": "every history of AddConstraint and RemoveConstraint", "why_tests_cant": "The claim ranges over every finite history of API calls; a test runs a few fixed histories.", "anchors": ["space.go:Space.AddConstraint", "space.go:Space.RemoveConstraint", "body.go:Body.RemoveConstraint", "body.go:filterConstraints"]}
{"id": "C20", "title": "Every body is in exactly one list", "statement": "After any history of AddBody/RemoveBody/sleep/wake each added body is in exactly one of the dynamic list, the static list or a sleeping component, and EachBody visits each exactly once.", "quantifier": "every history of body management and sleep/wake operations", "why_tests_cant": "The claim ranges over every finite history of API calls; a test runs a few fixed histories.", "anchors": ["space.go:Space.AddBody", "space.go:Space.RemoveBody", "space.go:Space.EachBody", "space.go:Space.Activate", "space.go:Space.Deactivate"]}
{"id": "C21", "title": "Every shape is in the right index", "statement": "After any history each added shape is in exactly one spatial index: the static one exactly when its body is static or asleep.", "quantifier": "every history of shape and body management and sleep/wake operations", "why_tests_cant": "The claim ranges over every finite history of API calls; a test runs a few fixed histories.", "anchors": ["space.go:Space.AddShape", "space.go:Space.RemoveShape", "space.go:Space.Activate", "space.go:Space.Deactivate"]}
{"id": "C22", "title": "Bodies sleep and wake as whole components", "statement": "A contact/constraint-connected component of dynamic bodies falls asleep only if all of its bodies have been idle for the threshold, all of its bodies fall asleep together, and activating any of them wakes all of them and restores the lists.", "quantifier": "every contact graph, every idle-time assignment", "why_tests_cant": "Connected components of arbitrary graphs with linked lists; tests use two or three bodies.", "anchors": ["space.go:Space.ProcessComponents", "space.go:FloodFillComponent", "space.go:ComponentActive", "body.go:Body.Activate"]}
{"id": "C23", "title": "EachBody visits every body once", "statement": "EachBody visits every body in the space, awake or sleeping, exactly once, and leaves which bodies sleep unchanged, whatever bodies that are already awake its callback wakes.", "quantifier": "every reachable space and every callback waking only bodies that are awake (waking sleeping ones: C86)", "why_tests_cant": "Depends on how iteration interacts with slices mutated by the callback.", "anchors": ["space.go:Space.EachBody", "body.go:Body.Activate"]}
{"id": "C24", "title": "Changing gravity wakes every sleeping body", "statement": "After SetGravity no body is asleep.", "quantifier": "every number and shape of sleeping components", "why_tests_cant": "Depends on aliasing of a slice that is being ranged over; a one-component test passes.", "anchors": ["space.go:Space.SetGravity", "body.go:Body.Activate"]}
{"id": "C25", "title": "Changing the type of a sleeping body", "statement": "SetType on a sleeping dynamic body leaves the space consistent: the body is listed once and its shapes are in the right index.", "quantifier": "every sleeping component and target type", "why_tests_cant": "Depends on the order of updates inside SetType for a rare state.", "anchors": ["body.go:Body.SetType", "body.go:Body.Activate"]}
{"id": "C26", "title": "Waking a body inside a collision callback", "statement": "Activating a sleeping body from a begin/preSolve callback leaves the arbiter lists well formed, so every traversal terminates.", "quantifier": "every contact set and callback behaviour", "why_tests_cant": "The failure is a cycle in a linked list reached through one interleaving of deferred operations.", "anchors": ["space.go:Space.Unlock", "space.go:Space.Activate", "space.go:Space.ProcessComponents", "body.go:Body.PushArbiter"]}
{"id": "C27", "title": "Deferred activation", "statement": "Bodies woken while the space is locked are activated exactly once when the outermost lock is released, in order of waking, and none before.", "quantifier": "every nesting of Lock/Unlock and wake requests", "why_tests_cant": "The claim ranges over every finite history of API calls; a test runs a few fixed histories.", "anchors": ["space.go:Space.Lock", "space.go:Space.Unlock", "space.go:Space.Activate"]}
{"id": "C28", "title": "Post-step callbacks run exactly once, in order", "statement": "Every callback accepted by AddPostStepCallback outside a running post-step callback runs exactly once, in registration order, when the outermost lock is released; nothing else runs callbacks; a key is accepted only if no queued callback has it.", "quantifier": "every sequence of registrations, including from inside callbacks", "why_tests_cant": "The claim ranges over every finite history of API calls; a test runs a few fixed histories.", "anchors": ["space.go:Space.AddPostStepCallback", "space.go:Space.Unlock"]}
{"id": "C29", "title": "Collision callback protocol", "statement": "For every pair of shapes and every history of touching / not touching steps, begin is called once at the start of a contact period, preSolve and postSolve only inside it, separate once at its end; returning false from begin suppresses preSolve/postSolve until separation; PreSolve false suppresses postSolve for that step.", "quantifier": "every history of touching/non-touching steps and callback return values", "why_tests_cant": "The claim ranges over every finite history of API calls; a test runs a few fixed histories.", "anchors": ["space.go:SpaceCollideShapesFunc", "hashset_arbiter.go:SpaceArbiterSetFilter", "space.go:Space.Step", "arbiter.go"]}
{"id": "C30", "title": "Handler lookup ignores argument order", "statement": "NewCollisionHandler(a,b) and (b,a) refer to one handler; a registered handler is found for either order of shapes, callbacks see shapes in the registered order, and unregistered pairs get the default or wildcard handlers.", "quantifier": "every sequence of handler registrations and every pair of collision types", "why_tests_cant": "The claim ranges over every finite history of API calls; a test runs a few fixed histories.", "anchors": ["space.go:Space.NewCollisionHandler", "space.go:Space.LookupHandler", "arbiter.go:Arbiter.Update", "arbiter.go:Arbiter.Shapes"]}
{"id": "C31", "title": "Wildcard handlers are combined in order", "statement": "A pair without a handler of its own asks the wildcard handler of the first shape's type (with that shape first), then the one of the second shape's type (with that one first): begin and preSolve ask the second only if the first agreed and the pair collides when both agree; postSolve and separate call both.", "quantifier": "every pair of wildcard handlers and return values", "why_tests_cant": "The second call is skipped only for particular return values.", "anchors": ["arbiter.go:Arbiter.CallWildcardBeginA", "arbiter.go:DefaultBegin", "arbiter.go:DefaultPreSolve"]}
{"id": "C32", "title": "PostSolve receives the handler's user data", "statement": "The begin, preSolve and separate functions of a handler receive the handler's UserData, and so do the wildcard functions called by the default ones in all four phases.", "quantifier": "every handler", "why_tests_cant": "A type-erased interface argument; tests that ignore it pass.", "anchors": ["space.go:Space.Step", "everything.go:CollisionHandler"]}
{"id": "C33", "title": "Filters reject symmetrically", "statement": "ShapeFilter.Reject(a,b) = Reject(b,a), and is true exactly when groups are equal and non-zero or one filter's categories miss the other's mask.", "quantifier": "all 64-bit groups, categories and masks", "why_tests_cant": "2^320 combinations of bit masks.", "anchors": ["everything.go:ShapeFilter.Reject", "space.go:QueryReject"]}
{"id": "C34", "title": "Contact impulses stay admissible", "statement": "After any number of solver iterations every contact's accumulated normal impulse is non-negative, its friction impulse is bounded by friction times normal impulse, and its bias impulse is non-negative.", "quantifier": "every arbiter, contact list, body state and iteration count", "why_tests_cant": "The claim ranges over every finite history of API calls; a test runs a few fixed histories.", "anchors": ["arbiter.go:Arbiter.ApplyImpulse", "arbiter.go:Arbiter.ApplyCachedImpulse"]}
{"id": "C35", "title": "The solver conserves momentum", "statement": "Whatever the solver does in a step (warm starts, contact and joint iterations, spring forces, any arbiters and joints in any order) the total linear momentum of bodies of finite mass is unchanged; a contact impulse J changes the total angular momentum by (gap between its two contact points) x J, so it is conserved too when every push acts along a common line; bodies of infinite mass (static, kinematic) are never moved.", "quantifier": "every arbiter, body states with positive masses, any number of iterations (ideal arithmetic)", "why_tests_cant": "The claim is geometric and quantifies over all real inputs; a test evaluates a few points.", "anchors": ["arbiter.go:Arbiter.ApplyImpulse", "arbiter.go:apply_impulses"]}
{"id": "C36", "title": "One contact iteration stops penetration", "statement": "After one iteration on a contact prepared by the step, the separation speed along the normal is at least the requested (elastic) one, and equal to it unless the accumulated impulse is clamped to zero, provided that the friction impulse of the same iteration has no component feeding back into the normal direction; likewise, unconditionally, for the position-correction velocities. The effective mass, elastic target and penetration correction prepared are the physical ones. For normals slightly shorter than 1 the error is at most (1-|n|^2) times the closing speed.", "quantifier": "every body pair and contact (ideal arithmetic)", "why_tests_cant": "The claim is geometric and quantifies over all real inputs; a test evaluates a few points.", "anchors": ["arbiter.go:Arbiter.ApplyImpulse", "everything.go:normal_relative_velocity", "everything.go:k_scalar"]}
{"id": "C37", "title": "Constraint impulses are bounded", "statement": "After a step of any joint other than the two springs, the impulse it reports is between 0 and maxForce*dt, for any number of iterations and whatever the rest of the world does between them (ratchet step non-zero; slide joint whose anchors do not coincide when shorter than its minimum). For the pin, gear, rotary limit and motor also in binary64, even if body states contain NaN or infinities.", "quantifier": "every joint, body state, iteration count and dt", "why_tests_cant": "The claim ranges over every finite history of API calls; a test runs a few fixed histories.", "anchors": ["pinjoint.go", "slidejoint.go", "pivotjoint.go", "groovejoint.go", "rotarylimitjoint.go", "ratchetjoint.go", "gearjoint.go", "simplemotor.go"]}
{"id": "C38", "title": "Constraint impulses obey Newton's third law", "statement": "Every joint (PreStep, warm start, iterations) pushes its two bodies with opposite impulses, angular joints with opposite torques (a gear in its ratio); pin, slide and spring push along the line through the anchors. One-sided joints never push the wrong way: a slide joint only pulls beyond its maximum, only pushes below its minimum and does nothing in between; a rotary limit only turns back from beyond a limit; a ratchet only turns in the direction of its teeth.", "quantifier": "every joint type, body state and iteration count (ideal arithmetic)", "why_tests_cant": "The claim is geometric and quantifies over all real inputs; a test evaluates a few points.", "anchors": ["arbiter.go:apply_impulses", "slidejoint.go", "ratchetjoint.go", "rotarylimitjoint.go", "gearjoint.go", "simplemotor.go"]}
{"id": "C39", "title": "Circle collisions are exact", "statement": "Two circles produce a contact exactly when their distance is below the sum of their radii, with unit normal along the centres, contact points on both surfaces and the penetration depth between them; the same for a circle against a segment's capsule (distance to the segment; with the centre exactly on the segment the normal is the segment's).", "quantifier": "all circles and segments (ideal arithmetic)", "why_tests_cant": "The claim is geometric and quantifies over all real inputs; a test evaluates a few points.", "anchors": ["collision.go:CircleToCircle", "collision.go:CircleToSegment", "collision.go:CircleToPoly"]}
{"id": "C40", "title": "Collision dispatch is total", "statement": "For every pair of shapes in either order a collision function exists, the shapes are exchanged exactly when their classes are out of order, and it produces at most two contacts.", "quantifier": "every pair of shapes", "why_tests_cant": "Dispatch table has holes that are unreachable only by an ordering argument.", "anchors": ["collision.go:Collide", "collision.go:ContactPoints", "everything.go:CollisionInfo.PushContact"]}
{"id": "C41", "title": "Narrow phase terminates", "statement": "GJK and EPA terminate after finitely many iterations for every input, including degenerate and NaN coordinates.", "quantifier": "all pairs of shapes, every float64 including NaN", "why_tests_cant": "Non-termination needs an adversarial input.", "anchors": ["collision.go:GJK", "collision.go:GJKRecurse", "collision.go:EPA", "collision.go:EPARecurse"]}
{"id": "C42", "title": "Support points are extreme and GJK's answer is a certificate", "statement": "The support point used by the narrow phase is a corner of the shape maximising the dot product over the whole shape. When GJK/EPA stops by itself (not at the iteration limit), its answer is a certificate: along the reported axis the two cores are nowhere closer than the reported distance (to 1e-15), the reported points attain it, they are nearest points if the cores are disjoint, and a distance above the sum of the radii means the rounded shapes do not touch. The reported points always belong to the shapes, even at the iteration limit.", "quantifier": "all pairs of shapes with at most 256 corners of coordinates up to 1e150, every cached id, every axis (ideal arithmetic; the two starting points must differ)", "why_tests_cant": "The claim is geometric and quantifies over all real inputs; a test evaluates a few points.", "anchors": ["collision.go:SupportPoint", "collision.go:PolySupportPointIndex", "vector.go:Vector.CheckAxis"]}
{"id": "C43", "title": "ShapesCollide reports penetration consistently", "statement": "Whatever the argument order, point A of every contact that ShapesCollide reports lies in the first shape and point B in the second; there are at most two; and with the shapes in class order (circle, segment, polygon; not circle against polygon) the distance is the component of B-A along the normal and never positive.", "quantifier": "every pair of shapes in either order", "why_tests_cant": "Only one of the two orders is wrong.", "anchors": ["shape.go:ShapesCollide", "arbiter.go:Arbiter.ContactPointSet"]}
{"id": "C44", "title": "Cached boxes enclose shapes", "statement": "After updating a shape, its box contains every point of the transformed shape including its radius.", "quantifier": "all circles, segments and polygons, all rigid transforms (ideal arithmetic)", "why_tests_cant": "The claim is geometric and quantifies over all real inputs; a test evaluates a few points.", "anchors": ["circle.go:Circle.CacheData", "segment.go:Segment.CacheData", "poly.go:PolyShape.CacheData"]}
{"id": "C45", "title": "Point queries return signed distance", "statement": "Shape point queries return the signed distance to the shape's surface (negative inside), a surface point at that distance, and (away from the core) the unit gradient from it to the query point; for query points not at a circle's centre, on a segment's core or on a polygon's boundary.", "quantifier": "all circles, segments and convex polygons with any radius, all rigid transforms, all points (ideal arithmetic)", "why_tests_cant": "The claim is geometric and quantifies over all real inputs; a test evaluates a few points.", "anchors": ["circle.go:Circle.PointQuery", "segment.go:Segment.PointQuery", "poly.go:PolyShape.PointQuery"]}
{"id": "C46", "title": "Shape segment queries return the first hit", "statement": "Shape segment queries report a hit iff the (radius-swept) segment meets the shape, with alpha the first fraction at which it does; the hit point and normal correspond to it. For circles (any sweep radius), segments and convex polygons without radius, starting outside.", "quantifier": "all shapes and segments (ideal arithmetic)", "why_tests_cant": "The claim is geometric and quantifies over all real inputs; a test evaluates a few points.", "anchors": ["circle.go:CircleSegmentQuery", "shape.go:Shape.SegmentQuery", "segment.go:Segment.SegmentQuery", "poly.go:PolyShape.SegmentQuery"]}
{"id": "C47", "title": "ConvexHull is the convex hull", "statement": "ConvexHull always returns, keeps the array's length and reports between one and all points, all of them input points. The hull is made of distinct points, counter-clockwise and convex (no vertex to the right of an edge), starting at the point *first reports. With tolerance 0 it contains every input point, and is strictly convex when no three input points are in line; with a tolerance every input point is in the hull or within the tolerance of the line through two hull vertices.", "quantifier": "every nonempty list of points (termination and membership: binary64 with NaN; geometry: ideal arithmetic, every tolerance >= 0)", "why_tests_cant": "In-place recursive partitioning of arrays of every length.", "anchors": ["poly.go:ConvexHull", "poly.go:QHullReduce", "poly.go:QHullPartition", "poly.go:LoopIndexes"]}
{"id": "C48", "title": "Polygon and circle mass properties", "statement": "For every polygon AreaForPoly (radius 0), CentroidForPoly and MomentForPoly are the integrals over the polygon of 1, of the position (divided by the area) and of mass density times squared distance; AreaForCircle and MomentForCircle are the integrals over the disc or ring between their two radii. AreaForPoly is translation and cyclic-shift invariant, is the sum of the signed triangles seen from any point, and is positive exactly for counter-clockwise winding of convex polygons; CentroidForPoly is translation equivariant; MomentForPoly is cyclic-shift invariant, the moment with an offset equals that of the shifted polygon (three or more vertices), and it obeys the parallel axis theorem.", "quantifier": "every vertex list (ideal arithmetic)", "why_tests_cant": "The claim is geometric and quantifies over all real inputs; a test evaluates a few points.", "anchors": ["everything.go:AreaForPoly", "everything.go:CentroidForPoly", "everything.go:MomentForPoly"]}
{"id": "C49", "title": "Polyline collection loses no edge", "statement": "Collecting segments into polylines keeps the multiset of directed edges exactly, in whatever order the segments arrive (in binary64, up to == of end points); if no two segments start at the same point no two polylines are left that could be joined; segments with distinct starts and distinct ends that close up give closed polylines only.", "quantifier": "every sequence of segments, in binary64 (edges) and over the reals (joining, closing)", "why_tests_cant": "The claim ranges over every finite history of API calls; a test runs a few fixed histories.", "anchors": ["polyline.go:PolyLineCollectSegment", "polyline.go:PolyLineSet"]}
{"id": "C50", "title": "Marching squares contours are watertight", "statement": "Marching squares, with any sampling callback: at every point off the outermost grid lines as many emitted segments begin as end; if no border sample is inside (above the threshold) that holds at every point. MarchSoft and MarchHard return for every box and sample counts (a panic only with no column and two or more rows).", "quantifier": "every box, threshold, sample counts and callback (which may answer differently on every call), in binary64, NaN and infinities included", "why_tests_cant": "4^n sign patterns of a grid of every size.", "anchors": ["march.go:MarchSoft", "march.go:MarchHard", "march.go:MarchCells"]}
{"id": "C51", "title": "SimplifyCurves stays near the curve", "statement": "SimplifyCurves returns on every polyline whose vertices are at least half the (non-negative) tolerance apart; the result is the polyline with vertices left out, with the same ends if it is open, closed if it was closed; every point of the result is within the tolerance of the original curve (up to the 1e-15 in Normalize).", "quantifier": "every polyline and non-negative tolerance; returning: binary64; the other claims: over the reals, whenever it returns", "why_tests_cant": "Non-termination needs a specific polyline.", "anchors": ["polyline.go:PolyLine.SimplifyCurves", "polyline.go:IsShort"]}
{"id": "C52", "title": "Only dynamic bodies feel gravity and forces", "statement": "Step never moves a static body; kinematic bodies move only with their own velocity and ignore gravity and forces; the default integration is v' = v*damping+(g+f/m)dt, p' = p+(v+v_bias)dt, forces are cleared afterwards.", "quantifier": "every body state, gravity, damping and dt", "why_tests_cant": "The claim ranges over every finite history of API calls; a test runs a few fixed histories.", "anchors": ["body.go:BodyUpdateVelocity", "body.go:BodyUpdatePosition", "space.go:Space.Step"]}
{"id": "C53", "title": "A degenerate segment still collides", "statement": "A circle overlapping a zero-length segment shape is reported as colliding (it is a point with a radius).", "quantifier": "all circles and points", "why_tests_cant": "Needs the exact degenerate input and NaN semantics.", "anchors": ["vector.go:Vector.ClosestPointOnSegment", "vector.go:Clamp01", "collision.go:CircleToSegment"]}
{"id": "C54", "title": "ShapeQuery reports each contact once", "statement": "ShapeQuery calls back exactly once, with the contact points of the narrow phase, for each shape whose filter agrees, that is not the shape itself, whose indexed box meets the shape's box and with which the narrow phase finds contacts; it returns true only if a contact was found and neither shape is a sensor; with no sensors it returns true exactly if there was a contact. (With sensors around: C99.)", "quantifier": "every history of the trees, shape and set of shapes, in binary64", "why_tests_cant": "The answer depends on which shape is visited last.", "anchors": ["space.go:Space.ShapeQuery"]}
{"id": "C55", "title": "Contact point sets round-trip", "statement": "Setting an arbiter's contact point set to the one just read leaves it unchanged (either shape order), and after setting a set of the same size, reading gives back its normal and points.", "quantifier": "every arbiter state (ideal arithmetic)", "why_tests_cant": "The claim is geometric and quantifies over all real inputs; a test evaluates a few points.", "anchors": ["arbiter.go:Arbiter.ContactPointSet", "arbiter.go:Arbiter.SetContactPointSet"]}
{"id": "C56", "title": "Kinetic energy is well behaved", "statement": "KineticEnergy equals m|v|^2 + i w^2 (Chipmunk's convention, twice the physical energy), is non-negative, zero exactly for a body at rest, and never produces a NaN for a body of infinite (or any) mass at rest.", "quantifier": "every body state", "why_tests_cant": "The claim is geometric and quantifies over all real inputs; a test evaluates a few points.", "anchors": ["body.go:Body.KineticEnergy"]}
{"id": "C57", "title": "Segment.SetEndpoints equals construction", "statement": "A segment changed with SetEndpoints behaves like a segment constructed with these endpoints.", "quantifier": "all segments and endpoints", "why_tests_cant": "The claim is geometric and quantifies over all real inputs; a test evaluates a few points.", "anchors": ["segment.go:Segment.SetEndpoints", "segment.go:NewSegment"]}
{"id": "C58", "title": "Pair hashing is symmetric", "statement": "HashPair(a,b) = HashPair(b,a) for all 64-bit identifiers, so a pair is found in the arbiter cache in either order.", "quantifier": "all pairs of 64-bit values", "why_tests_cant": "2^128 pairs.", "anchors": ["collision.go:HashPair", "hashset_arbiter.go"]}
{"id": "C59", "title": "Joints meet their velocity target", "statement": "When the impulse limit is not reached, one iteration of a joint makes the relative velocity it controls exactly the target: pin along the anchor line, pivot at the anchor point, gear b.w*ratio - a.w, motor the motor rate, and for the one-sided joints slide, rotary limit and ratchet at least on the allowed side. The effective masses prepared by PreStep are the physical ones; a pin's target removes the distance error at the bias rate.", "quantifier": "every joint, bodies, positions, masses, time step, impulse limit", "why_tests_cant": "Tests check a few configurations within a tolerance; exact cancellation must hold for all masses, anchors and velocities.", "anchors": ["pinjoint.go", "pivotjoint.go", "slidejoint.go", "gearjoint.go", "simplemotor.go", "rotarylimitjoint.go", "ratchetjoint.go", "constraint.go:RelativeVelocity,KScalarBody"]}
{"id": "C60", "title": "Reported impulses are the applied impulses", "statement": "The growth of a joint's accumulated impulse over any number of iterations is exactly the impulse applied to its bodies; warm starting applies the stored impulse scaled by dt/dt_prev; the arbiter's TotalImpulse is the total contact impulse applied to its bodies since they were untouched.", "quantifier": "every joint except the damped rotary spring, arbiter and number of iterations", "why_tests_cant": "Accounting must hold for every number of iterations and all clamping cases.", "anchors": ["constraint.go:GetImpulse", "arbiter.go:TotalImpulse,ApplyImpulse", "space.go:Step"]}
{"id": "C61", "title": "Contacts conserve angular momentum exactly", "statement": "Contact impulses leave the total angular momentum of the two bodies unchanged, also for penetrating shapes with friction.", "quantifier": "every arbiter and pair of bodies", "why_tests_cant": "Only an exact statement over all contact geometries shows where conservation is lost.", "anchors": ["arbiter.go:ApplyImpulse,ApplyCachedImpulse"]}
{"id": "C62", "title": "A contact iteration stops penetration despite friction", "statement": "After one iteration on a single contact the bodies do not approach at that contact, with any friction.", "quantifier": "every contact and pair of bodies", "why_tests_cant": "The failing configurations are off-centre contacts with friction.", "anchors": ["arbiter.go:ApplyImpulse"]}
{"id": "C63", "title": "maxForce bounds every constraint", "statement": "The impulse reported by any constraint, including springs and a slide joint with coincident anchors, is within [0, maxForce*dt].", "quantifier": "every constraint and configuration", "why_tests_cant": "Corner configurations (coincident anchors) and constraint types outside the bound.", "anchors": ["dampedrotaryspring.go", "dampedspring.go", "slidejoint.go"]}
{"id": "C64", "title": "The rotary spring reports the impulse it applies", "statement": "The damped rotary spring's reported impulse grows by the impulse it applies.", "quantifier": "every damped rotary spring, bodies and time step", "why_tests_cant": "Sign errors of the accounting cancel in symmetric tests.", "anchors": ["dampedrotaryspring.go:ApplyImpulse"]}
{"id": "C65", "title": "Forces and impulses act about the centre of gravity", "statement": "ApplyForceAtWorldPoint(f,p) adds f to the body's force and (p - centre of gravity in the world) x f to its torque and changes nothing else; ApplyImpulseAtWorldPoint adds f/mass and the same moment/moment-of-inertia to the velocities; the local variants are the world variants at the transformed point with the rotated vector; the next velocity update turns the accumulated force and torque into velocity exactly once and clears them.", "quantifier": "every body reachable by any sequence of API calls (including shapes that shift the centre of gravity), every force and point", "why_tests_cant": "unit tests try a body at the origin with zero centre of gravity, where a wrong arm is invisible", "anchors": ["body.go: ApplyForceAtWorldPoint, ApplyForceAtLocalPoint, ApplyImpulseAtWorldPoint, ApplyImpulseAtLocalPoint, BodyUpdateVelocity"]}
{"id": "C66", "title": "Refreshing a contact keeps its history", "statement": "When a touching pair is refreshed: the arbiter's elasticity and friction are the products of the shapes', its surface velocity is the tangential part of the shapes' difference; contact points are stored relative to the bodies; a contact with the identity of a previous one starts from its accumulated impulses and a new one from zero; the cached impulse is not applied on first contact and otherwise is the total impulse times the step-ratio, opposite on both bodies; an unsaturated friction impulse stops the slip.", "quantifier": "all arbiters, contact sets, materials, normals and bodies", "why_tests_cant": "a finite test cannot range over contact identities and histories; an error shows as slow drift rather than a failure", "anchors": ["arbiter.go: Update, ApplyCachedImpulse, PreStep, ApplyImpulse"]}
{"id": "C67", "title": "Joint preparation asks for the right correction", "statement": "For each joint PreStep asks for a velocity correction that is limited by maxBias and, unless limited, would leave exactly the fraction errorBias^dt of the joint's position error (pin: distance, pivot: gap, gear: angle relation, slide and rotary limit: excess beyond the limits, ratchet: excess tooth, groove: distance from the groove); the groove joint's end force is one-sided; a damped spring's force obeys Hooke's law along the line of its anchors and its damping never reverses the relative velocity; same for the rotary spring.", "quantifier": "all joints, bodies reachable by any API history, and positive steps", "why_tests_cant": "the laws are quantified over real parameters and poses", "anchors": ["pinjoint.go, pivotjoint.go, slidejoint.go, groovejoint.go, gearjoint.go, ratchetjoint.go, rotarylimitjoint.go, dampedspring.go, dampedrotaryspring.go: PreStep"]}
{"id": "C68", "title": "A fresh joint is satisfied", "statement": "A pin, pivot or ratchet joint built by its constructor from the current poses has zero position error: PreStep right after construction asks for no correction, so adding a joint does not jolt the bodies.", "quantifier": "all pairs of bodies reachable by any API history, all anchors", "why_tests_cant": "needs all poses, including rotated bodies with an offset centre of gravity", "anchors": ["pinjoint.go: NewPinJoint; pivotjoint.go: NewPivotJoint; ratchetjoint.go: NewRatchetJoint"]}
{"id": "C69", "title": "Both wildcard handlers are consulted", "statement": "When both shapes of a pair have wildcard handlers, both handlers' begin and preSolve functions are called. (Refuted: && short-circuits, the second handler never hears of a collision the first refused, but does get its separate.)", "quantifier": "every pair of wildcard handlers and return values", "why_tests_cant": "depends on the answers given by user callbacks", "anchors": ["arbiter.go: DefaultBegin, DefaultPreSolve"]}
{"id": "C70", "title": "Any pair of types may be registered", "statement": "NewCollisionHandler(a,b) with any two types gives a handler whose callbacks end. (Refuted: NewCollisionHandler(t, WILDCARD_COLLISION_TYPE) followed by any use of wildcards recurses without end at the first collision of a shape of type t.)", "quantifier": "every sequence of registrations", "why_tests_cant": "a sequence of two registrations that are each fine", "anchors": ["space.go: NewCollisionHandler, LookupHandler; arbiter.go: DefaultBegin, CallWildcardBeginA"]}
{"id": "C71", "title": "postSolve receives the UserData", "statement": "The postSolve function of a handler receives the handler's UserData like the other three. (Refuted: it receives the handler itself.)", "quantifier": "every handler", "why_tests_cant": "an interface{} argument: a type assertion in user code panics", "anchors": ["space.go: Step"]}
{"id": "C72", "title": "No legal call sequence breaks the space", "statement": "Every sequence of AddBody/RemoveBody/AddShape/RemoveShape/AddConstraint/RemoveConstraint/SetType/Activate/ActivateStatic/SetGravity/Step calls that respects the documented preconditions runs to the end: no panic, no endless loop, no object inserted twice into an index or a list.", "quantifier": "all histories of legal calls, all contact patterns, callback answers, velocities and thresholds", "why_tests_cant": "the number of histories is unbounded and corruption appears only after particular interleavings of sleeping, waking and removal", "anchors": ["space.go: Step, processComponents, Activate, Deactivate, AddBody, RemoveBody, AddShape, RemoveShape, AddConstraint, RemoveConstraint", "body.go: Activate, ActivateStatic, SetType"]}
{"id": "C73", "title": "A recycled arbiter is referenced from nowhere", "statement": "An arbiter handed back to the pool is in no body list, not in the list of active arbiters and not in the cache of remembered ones, so handing it out again cannot change a contact that is still in use; no arbiter is in the pool twice.", "quantifier": "all histories of legal calls", "why_tests_cant": "aliasing of pooled objects shows up only for particular histories of ageing, removal and waking", "anchors": ["space.go: CollideShapes, UncacheArbiter", "hashset_arbiter.go: CachedArbitersFilter, SpaceArbiterSetFilter"]}
{"id": "C74", "title": "postSolve follows preSolve in the same step", "statement": "In every step, postSolve is called for a pair only if preSolve was called for it in that step.", "quantifier": "all histories of legal calls", "why_tests_cant": "needs a sleeping contact that is woken by another collision in the same step", "anchors": ["space.go: Step, Activate, processComponents"]}
{"id": "C75", "title": "Post-step callbacks registered by post-step callbacks", "statement": "A callback that AddPostStepCallback accepts while a post-step callback is running is run later.", "quantifier": "every history and every callback body", "why_tests_cant": "Depends on re-entrancy; the accepted call reports success either way.", "anchors": ["space.go:Space.AddPostStepCallback", "space.go:Space.Unlock"]}
{"id": "C76", "title": "Point queries at the core", "statement": "Point queries return a usable surface point wherever the query point is. (Refuted: at a circle's centre and on a polygon's boundary the point is NaN, and on a segment's core the reported point is not on the surface; a segment query starting on a polygon's boundary has a NaN normal.)", "quantifier": "all shapes and points, binary64", "why_tests_cant": "A test would have to hit the degenerate position exactly.", "anchors": ["circle.go:Circle.PointQuery", "segment.go:Segment.PointQuery", "poly.go:PolyShape.PointQuery"]}
{"id": "C77", "title": "Segment queries against rounded segments", "statement": "Segment queries against a segment with a radius report the first hit. (Refuted: a query starting beside an end of the segment, within the radius of its line, can report a later hit or none.)", "quantifier": "all segments with a radius and all queries", "why_tests_cant": "The claim is geometric and quantifies over all real inputs; a test evaluates a few points.", "anchors": ["segment.go:Segment.SegmentQuery"]}
{"id": "C78", "title": "Hit point of a query starting inside", "statement": "When a segment query starts inside the shape, the reported point corresponds to alpha. (Refuted: alpha is 0, the point is the far end of the query.)", "quantifier": "all shapes and queries", "why_tests_cant": "The claim is geometric and quantifies over all real inputs; a test evaluates a few points.", "anchors": ["shape.go:Shape.SegmentQuery"]}
{"id": "C79", "title": "Documented sign of AreaForPoly", "statement": "As its documentation says, AreaForPoly is positive for clockwise winding. (Refuted: it is positive for counter-clockwise winding.)", "quantifier": "all convex polygons", "why_tests_cant": "The claim is geometric and quantifies over all real inputs; a test evaluates a few points.", "anchors": ["everything.go:AreaForPoly"]}
{"id": "C80", "title": "MomentForPoly with two vertices", "statement": "MomentForPoly adds its offset to each vertex, also with two vertices. (Refuted: with two vertices the offset is ignored.)", "quantifier": "all vertex pairs and offsets", "why_tests_cant": "The claim is geometric and quantifies over all real inputs; a test evaluates a few points.", "anchors": ["everything.go:MomentForPoly"]}
{"id": "C81", "title": "ShapesCollide distances in either order", "statement": "ShapesCollide reports a negative distance for overlapping shapes in either argument order. (Refuted: for shapes given out of class order the same overlap has a positive distance.)", "quantifier": "every pair of shapes in either order", "why_tests_cant": "Only one of the two orders is wrong.", "anchors": ["shape.go:ShapesCollide", "collision.go:Collide"]}
{"id": "C82", "title": "Circle against a rounded polygon", "statement": "The contact point of a circle with a rounded polygon lies on the polygon's rounded surface facing the circle, and its distance is negative. (Refuted: it is offset to the wrong side by the rounding radius, inside the polygon, and the distance can be positive.)", "quantifier": "all circles and rounded polygons", "why_tests_cant": "The claim is geometric; only rounded polygons show it.", "anchors": ["collision.go:CircleToPoly"]}
{"id": "C83", "title": "Disjoint collinear segments do not collide", "statement": "Two segments whose shapes are disjoint are not reported as colliding. (Refuted: for segments in line GJK reports distance 0 and contacts, whatever the gap between them.)", "quantifier": "all pairs of disjoint segment shapes", "why_tests_cant": "Needs exactly collinear input.", "anchors": ["collision.go:NewClosestPoints", "collision.go:SegmentToSegment"]}
{"id": "C84", "title": "The hull tolerance bounds the distance to the hull", "statement": "A point dropped by ConvexHull is within the tolerance of the hull. (Refuted: it is only within the tolerance of a line through two hull vertices; with tolerance 1 a point at distance 9 from the hull is dropped.)", "quantifier": "every list of points and tolerance", "why_tests_cant": "Existential over inputs; needs points whose extreme in x is not extreme on the hull line.", "anchors": ["poly.go:ConvexHull", "poly.go:QHullPartition"]}
{"id": "C85", "title": "The hull has no redundant vertices", "statement": "ConvexHull with tolerance 0 returns only extreme points. (Refuted: when several points tie for the largest distance from a chord, all of them are kept, one in the middle of the others' edge.)", "quantifier": "every list of points", "why_tests_cant": "Needs exact ties.", "anchors": ["poly.go:QHullReduce", "poly.go:QHullPartition"]}
{"id": "C86", "title": "EachBody callbacks may wake bodies", "statement": "EachBody visits every body once even if the callback wakes sleeping bodies. (Refuted: waking a component while iterating skips bodies of it and later components, and visits others twice.)", "quantifier": "every set of sleeping components and callback", "why_tests_cant": "Depends on how iteration interacts with slices mutated by the callback.", "anchors": ["space.go:Space.EachBody", "body.go:Body.Activate"]}
{"id": "C87", "title": "Contours that touch are closed", "statement": "Collecting segments in which every point is the start of as many segments as it is the end of gives closed polylines only. (Refuted when a point is passed twice: two open polylines are left: a new segment is attached to the first match only)", "quantifier": "every sequence of balanced segments", "why_tests_cant": "Existential over arrival orders of segments through a repeated point.", "anchors": ["polyline.go:PolyLineCollectSegment", "polyline.go:FindEnds"]}
{"id": "C88", "title": "SimplifyCurves drops only vertices near the result", "statement": "Every vertex SimplifyCurves leaves out is within the tolerance of the simplified curve. (Refuted: distance is measured to the infinite line, so a vertex beyond the ends of the chord is dropped at any distance.)", "quantifier": "every polyline and tolerance", "why_tests_cant": "Existential over inputs; needs an overshooting polyline.", "anchors": ["polyline.go:DouglasPeucker"]}
{"id": "C89", "title": "SimplifyCurves does not panic", "statement": "SimplifyCurves does not panic on polylines with three or more vertices. (Refuted: IsShort is asked about the curve being built with indexes into the original: index out of range.)", "quantifier": "every polyline", "why_tests_cant": "Needs two vertices nearer than half the tolerance with another between them.", "anchors": ["polyline.go:DouglasPeucker", "polyline.go:PolyLine.IsShort"]}
{"id": "C90", "title": "SimplifyCurves terminates", "statement": "SimplifyCurves returns on every polyline. (Refuted: the loop in IsShort never advances its index; when the distance added is absorbed by rounding it runs forever.)", "quantifier": "every polyline, in binary64, any number of loop rounds", "why_tests_cant": "No test run shows that a loop never ends.", "anchors": ["polyline.go:PolyLine.IsShort"]}
{"id": "C91", "title": "SimplifyVertexes leaves out vertices only", "statement": "SimplifyVertexes returns for every polyline with at least two vertices; the result is the polyline with vertices left out but not its ends, except that for a closed polyline the first vertex may be replaced by the last but one of the result; if every vertex turns by more than the tolerance nothing changes.", "quantifier": "every polyline with two or more vertices, every tolerance (the last claim: up to a right angle), over the reals", "why_tests_cant": "Every polyline of every length.", "anchors": ["polyline.go:PolyLine.SimplifyVertexes", "polyline.go:Sharpness"]}
{"id": "C92", "title": "SimplifyVertexes keeps closed polylines closed", "statement": "SimplifyVertexes of a closed polyline is closed. (Refuted: when the seam is straight the first vertex is replaced but the last one is not removed.)", "quantifier": "every closed polyline and tolerance", "why_tests_cant": "Needs a polyline whose seam lies inside a straight edge.", "anchors": ["polyline.go:PolyLine.SimplifyVertexes"]}
{"id": "C93", "title": "SimplifyVertexes reaches the minimum angle", "statement": "Every inner vertex of the result of SimplifyVertexes turns by at least the tolerance, as documented. (Refuted: vertices already kept are not examined again after the next one is replaced.)", "quantifier": "every polyline and tolerance", "why_tests_cant": "Needs a polyline where removing a vertex straightens the one before.", "anchors": ["polyline.go:PolyLine.SimplifyVertexes"]}
{"id": "C94", "title": "The contour is where the samples cross the threshold", "statement": "MarchSoft: every segment end lies between neighbouring grid nodes, one inside and one not, at the point where linear interpolation of the samples gives the threshold; MarchHard: half way between such nodes, or at the middle of a cell. Every segment has an inside node on its left and an outside node on its right. Between any two neighbouring nodes on different sides of the threshold there is a segment end.", "quantifier": "every box, sample counts, threshold and sampling function of the point, over the reals", "why_tests_cant": "Every grid size and sign pattern.", "anchors": ["march.go:MarchCellSoft", "march.go:MarchCellHard", "march.go:MarchCells", "march.go:midlerp"]}
{"id": "C95", "title": "Marching squares gives closed polylines", "statement": "MarchSoft and MarchHard with PolyLineCollectSegment return closed polylines only, if no node on the border of the grid is inside; for MarchSoft, if no sample equals the threshold exactly.", "quantifier": "every box, sample counts, threshold and sampling function with border outside, over the reals", "why_tests_cant": "Every grid size and sign pattern; the polylines depend on the whole history of joins.", "anchors": ["march.go:MarchSoft", "march.go:MarchHard", "polyline.go:PolyLineCollectSegment"]}
{"id": "C96", "title": "BBQuery finds exactly the shapes whose boxes meet the query box", "statement": "BBQuery calls back exactly once for each shape the filter accepts whose bounding box intersects the query box, and for no other.", "quantifier": "every history of the trees after which the index is up to date, box and filter, in binary64", "why_tests_cant": "Every tree shape reachable by any history.", "anchors": ["space.go:Space.BBQuery", "bbtree.go:Node.SubtreeQuery"]}
{"id": "C97", "title": "SegmentQuery calls back once per shape entered", "statement": "Space.SegmentQuery without radius calls back exactly once, with the first hit, for each shape the filter accepts (sensors included) that the segment enters before its end, and for no shape it does not meet.", "quantifier": "every history of the two trees, every segment and filter; ideal arithmetic; discs, and thin segments and thin convex polygons in general position", "why_tests_cant": "Every tree shape and traversal order.", "anchors": ["space.go:Space.SegmentQuery", "bbtree.go:Node.SubtreeSegmentQuery"]}
{"id": "C98", "title": "Segment queries with a radius find every shape within it", "statement": "SegmentQuery and SegmentQueryFirst with a positive radius report every shape that Shape.SegmentQuery with that radius reports.", "quantifier": "every space, segment and radius", "why_tests_cant": "Every tree shape: a space with one shape behaves differently from one with two.", "anchors": ["space.go:Space.SegmentQueryFirst", "bbtree.go:Node.SubtreeSegmentQuery", "bb.go:BB.SegmentQuery"]}
{"id": "C99", "title": "ShapeQuery returns true if a solid contact was found", "statement": "ShapeQuery returns true whenever it called back for a contact with neither shape a sensor.", "quantifier": "every space and shape", "why_tests_cant": "The answer depends on which shape is visited last.", "anchors": ["space.go:Space.ShapeQuery"]}
{"id": "C100", "title": "Whether SegmentQuery reports a shape depends on that shape only", "statement": "SegmentQuery reports a shape whenever Shape.SegmentQuery reports a hit, also one exactly at the segment's end.", "quantifier": "every space and segment", "why_tests_cant": "Depends on the tree the history built.", "anchors": ["space.go:Space.SegmentQuery", "bbtree.go:Node.SubtreeSegmentQuery"]}
{"id": "C101", "title": "Reindex keeps the objects findable", "statement": "After Reindex on a spatial hash (Space.ReindexStatic), queries still find the objects that are in it.", "quantifier": "every history of the spatial hash", "why_tests_cant": "Every finite history of API calls.", "anchors": ["spacehash.go:SpaceHash.Reindex", "space.go:Space.ReindexStatic"]}
{"id": "C102", "title": "Segment queries on a spatial hash miss nothing on the way", "statement": "SegmentQuery on a spatial hash ends, calls back at most once per object, and calls back for every object whose box contains a point of the segment before the point where the callbacks' return values cut the query short - for a segment that does not start exactly on a grid line it leaves in negative direction, and apart from the isolated points where a segment going left and up passes through a grid corner.", "quantifier": "every history, cell and table size, segment and callback; ideal arithmetic", "why_tests_cant": "Every segment and grid, and every callback.", "anchors": ["spacehash.go:SpaceHash.SegmentQuery"]}
{"id": "C103", "title": "Segment queries on a spatial hash from a grid line", "statement": "SegmentQuery on a spatial hash also finds the objects on the way if the segment starts exactly on a grid line.", "quantifier": "every segment", "why_tests_cant": "Every segment and grid.", "anchors": ["spacehash.go:SpaceHash.SegmentQuery"]}
{"id": "C104", "title": "A pair kept for its sleeping bodies keeps its own contacts", "statement": "A remembered pair whose shapes stopped touching just before both bodies fell asleep still reads its own contacts when the bodies wake. (Refuted: its arbiter is neither stored away nor swept, its memory is handed to another pair, and when the pair touches again the new contact is warm started with the other pair's impulse.)", "quantifier": "every history of steps", "why_tests_cant": "The failing history needs five steps, a sleeping pair that no longer touches and a second pair whose contact has the same hash (all circles have hash 0).", "anchors": ["hashset_arbiter.go:SpaceArbiterSetFilter", "space.go:Space.Deactivate", "space.go:Space.PushFreshContactBuffer", "arbiter.go:Arbiter.Update"]}
{"id": "C105", "title": "Contact memory does not leak", "statement": "If no step keeps more than m contacts, the space never owns more than 4*(m/1023+1) contact buffers, whatever the history; the buffers form one ring from the oldest to the newest.", "quantifier": "every history of steps and every m", "why_tests_cant": "The bound is over every history; a leak of one buffer per thousand steps passes any test.", "anchors": ["contactbuffer.go:ContactBuffer.InitHeader", "space.go:Space.PushFreshContactBuffer", "space.go:Space.ContactBufferGetArray", "space.go:Space.PushContacts", "space.go:Space.PopContacts"]}
{"id": "C106", "title": "RemoveConstraint never panics", "statement": "RemoveConstraint succeeds on every constraint that AddConstraint accepted. (Refuted for a constraint whose two bodies are the same, and for a constraint removed twice: both dereference nil in a release build; true for constraints between two different bodies, see C19.)", "quantifier": "every history of AddConstraint and RemoveConstraint", "why_tests_cant": "The failing input is a single unusual constraint; passing tests never build one.", "anchors": ["space.go:Space.AddConstraint", "space.go:Space.RemoveConstraint", "body.go:filterConstraints"]}
{"id": "C107", "title": "Setters leave a shape as if newly constructed", "statement": "After any sequence of SetMass, SetDensity, SetRadius, SetEndpoints and SetVerts (except SetRadius on a polygon, see C108) the mass, moment, area and centre of gravity of a shape are those of a new shape constructed with its present geometry and given its present mass; SetMass changes nothing but the mass, and SetDensity(d) sets the mass to d times the area.", "quantifier": "every shape of the three kinds, every finite sequence of setter calls", "why_tests_cant": "The claim ranges over every sequence of setter calls; a test runs a few.", "anchors": ["shape.go:Shape.SetMass", "shape.go:Shape.SetDensity", "circle.go:Circle.SetRadius", "segment.go:Segment.SetRadius", "segment.go:Segment.SetEndpoints", "poly.go:PolyShape.SetVertsUnsafe"]}
{"id": "C108", "title": "SetRadius on a polygon updates its area", "statement": "After PolyShape.SetRadius(r) the shape's area is that of the rounded polygon, and SetDensity(d) gives it d times that area. (Refuted for every polygon: the mass info is not recomputed, so area and density-derived mass are those of the old radius.)", "quantifier": "every polygon, every positive radius", "why_tests_cant": "Tests set the radius at construction.", "anchors": ["poly.go:PolyShape.SetRadius", "shape.go:Shape.SetDensity"]}
{"id": "C109", "title": "Density reads back", "statement": "SetDensity(d) followed by Density() returns d for every shape of non-zero area, and changes neither geometry, moment per unit mass, area nor centre of gravity.", "quantifier": "every shape, every density (ideal arithmetic)", "why_tests_cant": "The claim quantifies over all real inputs.", "anchors": ["shape.go:Shape.SetDensity", "shape.go:Shape.Density"]}
{"id": "C110", "title": "Boxes, segments and polygons agree about moments", "statement": "MomentForBox2 of a box is MomentForPoly of its four corners; NewBox has the moment of MomentForBox, its centre of gravity at the origin and the area of the rounded rectangle; MomentForSegment is a segment shape's moment about its middle plus the parallel-axis term.", "quantifier": "every box with positive sides, every segment (ideal arithmetic)", "why_tests_cant": "The claim quantifies over all real inputs.", "anchors": ["everything.go:MomentForBox", "everything.go:MomentForBox2", "everything.go:MomentForSegment", "poly.go:NewBox", "segment.go:NewSegmentMassInfo"]}
{"id": "C111", "title": "Removing the last massive shape leaves a body usable", "statement": "A dynamic body whose mass came from its shapes still has finite velocity after its last massive shape is removed and the space is stepped. (Refuted: mass and moment become 0, the inverse mass +Inf, and the next velocity update makes both components NaN, with no force and whatever the gravity.)", "quantifier": "every gravity, damping and time step (binary64)", "why_tests_cant": "The failure needs IEEE infinities and one particular order of calls.", "anchors": ["body.go:Body.AccumulateMassFromShapes", "body.go:Body.RemoveShape", "body.go:BodyUpdateVelocity"]}
{"id": "C112", "title": "An isolated group of bodies moves as one particle", "statement": "Over any number of Steps, a group of dynamic bodies of finite mass that no contact and no joint connects with other bodies has, whatever contacts and joints act inside the group, the total momentum and centre of mass of a single free particle of the group's mass: each step multiplies the momentum by Pow(damping, dt) and adds weight and applied forces times dt, and moves the centre of mass by dt times its velocity; penetration correction never moves the centre of mass. Without gravity, damping and forces momentum is conserved exactly and the centre of mass moves uniformly.", "quantifier": "every number of steps of every lengths, every set of bodies, every set of contacts and joints in each step, every number of iterations (ideal arithmetic)", "why_tests_cant": "The claim is a conservation law over all histories of contacts and joints; a test simulates one scene and tolerates drift.", "anchors": ["space.go:Space.Step", "body.go:BodyUpdateVelocity", "body.go:BodyUpdatePosition", "arbiter.go:Arbiter.ApplyImpulse"]}
{"id": "C113", "title": "Steps leave static bodies alone and kinematic bodies on their course", "statement": "No Step changes anything about a static body, whatever touches it or is jointed to it; a kinematic body keeps its velocity and angular velocity exactly and moves by velocity times time, whatever it hits.", "quantifier": "every number of steps, every set of contacts and joints (ideal arithmetic)", "why_tests_cant": "The claim ranges over everything that could push the body.", "anchors": ["space.go:Space.Step", "body.go:BodyUpdateVelocity", "arbiter.go:Arbiter.ApplyImpulse"]}
{"id": "C114", "title": "Islands are independent", "statement": "What a group of bodies does during any number of Steps does not depend on the other bodies in the space, as long as no contact and no joint connects the group with them: positions, velocities and stored impulses are bit for bit those of the group alone in the space, and do not depend on the order in which bodies are listed. Groups that share only static or kinematic bodies (two stacks on the same ground or platform) are independent too.", "quantifier": "every arithmetic (so binary64), every pair of spaces that look the same to the group, every number of steps", "why_tests_cant": "The claim compares all possible surroundings.", "anchors": ["space.go:Space.Step"]}
{"id": "C115", "title": "What is at rest stays at rest", "statement": "Bodies at rest whose contacts (not deeper than the slop, friction within the cone) and pivot joints (anchors meeting, impulse within maxForce) hold stored impulses that carry exactly their weights over the length of the step do not move at all, over any number of Steps, for any number of solver iterations, and the stored impulses stay as they are; when the step length changes, the stored impulses applied are scaled by the ratio of the lengths; in the first step of a space none are applied.", "quantifier": "every arrangement of bodies, contacts and pivot joints in equilibrium, every number of steps and iterations (ideal arithmetic)", "why_tests_cant": "The claim is about every equilibrium and all later steps; a test watches one stack for a while with a tolerance.", "anchors": ["space.go:Space.Step", "arbiter.go:Arbiter.ApplyCachedImpulse", "arbiter.go:Arbiter.PreStep", "arbiter.go:Arbiter.ApplyImpulse", "pivotjoint.go:PivotJoint.PreStep", "pivotjoint.go:PivotJoint.ApplyImpulse"]}
{"id": "C116", "title": "TotalImpulse after a step is the impulse applied in it", "statement": "After every Step, Arbiter.TotalImpulse is the impulse the pair applied to the body during that step.", "quantifier": "every step, also after a step of another length", "why_tests_cant": "The claim ranges over sequences of step lengths.", "anchors": ["arbiter.go:Arbiter.TotalImpulse", "arbiter.go:Arbiter.ApplyCachedImpulse", "space.go:Space.Step"]}
{"id": "C117", "title": "The pointers of the bounding-box tree are sound", "statement": "In the tree as it lies in memory - nodes with parent pointers, recycled nodes and pairs, doubly linked pair lists - no operation follows a nil pointer or loops for ever, whatever sequence of insertions, removals, reindexings and queries came before; queries report exactly what they should and a step's query reports every pair of overlapping boxes exactly once.", "quantifier": "every history of insertions, removals, moves, reindexings and steps on the two trees of a space (binary64)", "why_tests_cant": "A stale parent pointer, a recycled node still linked or a pair unlinked from the wrong list shows up only after particular sequences of operations; a test runs a few of them.", "anchors": ["bbtree.go:BBTree.Insert", "bbtree.go:BBTree.Remove", "bbtree.go:BBTree.SubtreeInsert", "bbtree.go:BBTree.SubtreeRemove", "bbtree.go:BBTree.ReplaceChild", "bbtree.go:BBTree.PairInsert", "bbtree.go:BBTree.PairsClear", "bbtree.go:Thread.Unlink", "bbtree.go:BBTree.NodeFromPool", "bbtree.go:BBTree.PairFromPool", "bbtree.go:Node.MarkLeaf", "bbtree.go:Node.MarkLeafQuery", "bbtree.go:BBTree.LeafUpdate", "bbtree.go:BBTree.ReindexQuery"]}
{"id": "C118", "title": "The bounding-box trees do not leak", "statement": "The memory of the two trees does not grow with the number of operations: the nodes ever made are at most twice the largest populations of the two trees so far plus one allocation batch per tree, and the pairs ever made are at most the largest number of pairs with a moving object so far plus one batch; in particular inserting and removing an object for ever uses a fixed amount of memory.", "quantifier": "every history of insertions, removals, moves, reindexings and steps on the two trees of a space (binary64)", "why_tests_cant": "A node or pair that is unlinked but not recycled is a leak of a few bytes; only a count over every history, of any length, excludes it.", "anchors": ["bbtree.go:BBTree.NodeFromPool", "bbtree.go:BBTree.NodeRecycle", "bbtree.go:BBTree.PairFromPool", "bbtree.go:BBTree.RecyclePair", "bbtree.go:Pair", "bbtree.go:BBTree.Remove"]}
{"id": "C119", "title": "Membership and iteration tell what is in the space", "statement": "ContainsBody, ContainsShape and ContainsConstraint are true exactly for what has been added and not removed since; EachBody and EachShape call back exactly once for each body (shape) added and not removed since, asleep or not; EachConstraint calls back at most once per constraint and exactly for those added and not removed since neither of whose bodies is asleep.", "quantifier": "every legal history of calls on a space", "why_tests_cant": "Sleeping moves bodies, shapes and constraints between five containers; every order of adds, removes, wakes, type changes and steps has to be covered.", "anchors": ["space.go:Space.ContainsBody", "space.go:Space.ContainsShape", "space.go:Space.ContainsConstraint", "space.go:Space.EachBody", "space.go:Space.EachShape", "space.go:Space.EachConstraint"]}
{"id": "C120", "title": "EachConstraint visits every constraint of the space", "statement": "Space.EachConstraint calls back for every constraint for which ContainsConstraint is true.", "quantifier": "every reachable space", "why_tests_cant": "It holds until a body falls asleep, so a test without sleeping passes.", "anchors": ["space.go:Space.EachConstraint", "space.go:Space.Deactivate"]}
{"id": "C121", "title": "SetSensor and SetCollideBodies wake the bodies concerned and take effect in the next step", "statement": "SetSensor wakes the shape's body and SetCollideBodies both bodies of the constraint, with everything that sleeps with them, and change nothing else in the space; after SetCollideBodies(false) the shapes of the two bodies are apart at the end of the next step in which one of them moves, whatever the geometry.", "quantifier": "every reachable space, shape, constraint, and step", "why_tests_cant": "The bodies may be asleep in any island, in contact or not, when the flag is changed.", "anchors": ["shape.go:Shape.SetSensor", "constraint.go:Constraint.SetCollideBodies", "constraint.go:Constraint.ActivateBodies", "space.go:QueryReject"]}
{"id": "C122", "title": "Collision callbacks report what the geometry says", "statement": "After a Step, two shapes of a space of which at least one belongs to an awake body are in contact (begin was called since they were last apart; preSolve was called in this step unless refused) if they are not filtered, joined or of one body, their boxes meet and the narrow phase finds contacts; they are apart if one of these fails. The bounding-box trees and the box test never hide an overlapping pair, whatever was inserted, removed, moved, woken or put to sleep before. In exact arithmetic two circles are in contact exactly if their centres are closer than the sum of the radii, and a circle and a rounded segment exactly if the distance is less than the sum of the radii.", "quantifier": "every history of calls and steps on a space with its two trees, every movement, every pair of shapes", "why_tests_cant": "A pair can be lost or reported twice in the tree, the pair cache, the filter, the narrow phase or the arbiter cache, depending on the whole history; a test sees one history.", "anchors": ["space.go:Space.Step", "space.go:SpaceCollideShapesFunc", "space.go:QueryReject", "bbtree.go:BBTree.ReindexQuery", "collision.go:Collide", "shape.go:Shape.CacheBB"]}
{"id": "C123", "title": "The solver does not make kinetic energy", "statement": "Without gravity, forces, motors, bounce, friction and position correction (ErrorBias 1), Step never increases the sum of the bodies' KineticEnergy, whatever contacts and pin, slide, gear, ratchet, rotary-limit and idle motor joints connect them and however often the solver iterates. Single solver actions: a contact with friction never adds energy as long as the friction already applied fits the cone of the new normal impulse, a pivot unless it is held back by MaxForce, a spring's damper never. A single contact with elasticity between 0 and 1 never adds energy, whatever the number of iterations.", "quantifier": "all bodies of finite mass and resting immovable bodies, all scenes, step histories, iteration counts, time steps, effective masses", "why_tests_cant": "One configuration of masses and anchors says nothing about the next; an increase shows up only in some of them and only after some iterations.", "anchors": ["arbiter.go:Arbiter.ApplyImpulse", "arbiter.go:Arbiter.PreStep", "pinjoint.go", "slidejoint.go", "pivotjoint.go", "gearjoint.go", "ratchetjoint.go", "rotarylimitjoint.go", "simplemotor.go", "dampedspring.go", "dampedrotaryspring.go", "space.go:Space.Step", "body.go:Body.KineticEnergy"]}
{"id": "C124", "title": "A groove joint lets the body slide freely", "statement": "A groove joint whose anchor is inside the groove and moves along it has nothing to correct: it neither pushes the body out of the groove nor adds kinetic energy.", "quantifier": "all masses, anchors, grooves and iteration counts", "why_tests_cant": "An anchor at the centre of gravity never shows it.", "anchors": ["groovejoint.go:GrooveJoint.ApplyImpulse", "groovejoint.go:GrooveJoint.PreStep", "groovejoint.go:grooveConstrain"]}
{"id": "C125", "title": "No solver iteration makes energy", "statement": "With elasticity at most 1 (and friction) an iteration of the contact solver never increases the kinetic energy of the two bodies.", "quantifier": "all contacts, masses, elasticities in [0,1], friction coefficients", "why_tests_cant": "Depends on the masses and on how many contacts share the impact.", "anchors": ["arbiter.go:Arbiter.ApplyImpulse", "arbiter.go:Arbiter.PreStep"]}
{"id": "C126", "title": "A polygon shape is the convex hull of its points", "statement": "NewPolyShape(points, transform, radius) accepts points in any order, repeated, in the interior or on the edges, and any transform including mirrored ones. Unless all transformed points are in line, the shape's core is exactly the convex hull of the points placed by the transform and the body: PointQuery reports the distance to that hull (less the radius) from outside, and minus the depth inside it (less the radius) from inside; its area is positive.", "quantifier": "every list of points not all in line, every transform, every rigid body placement, radius and query point within float range", "why_tests_cant": "Orders, duplicates, collinear runs and mirrored transforms cannot be enumerated; a wrong winding or a lost corner shows up only for some of them.", "anchors": ["poly.go:NewPolyShape", "poly.go:NewPolyShapeRaw", "poly.go:PolyShape.SetVerts", "poly.go:PolyShape.SetVertsUnsafe", "poly.go:ConvexHull", "poly.go:PolyShape.PointQuery"]}
{"id": "C127", "title": "A polygon of points in line is a segment", "statement": "NewPolyShape of points that are all in line behaves as the segment between the outermost ones: a point query reports the distance to it.", "quantifier": "all points in line", "why_tests_cant": "Needs the degenerate input and a query point on the same line.", "anchors": ["poly.go:NewPolyShape", "poly.go:PolyShape.PointQuery"]}
{"id": "C128", "title": "The physics does not depend on the frame of reference", "statement": "Turn a whole space by any angle and shift it (bodies' positions, velocities, forces and angles, gravity, contact normals and everything joints store in world coordinates; a gear's phase by the angle times ratio-1): after any number of Steps every body is where the original one would be, turned and shifted, and the impulses in contacts and joints are the turned ones. So distances, relative angles, speeds and spins are the same. Without damping it also holds in a frame that moves uniformly, for bodies that are all integrated and touch only each other. (A groove joint stands only for turns about the origin.)", "quantifier": "every angle, shift and speed; every scene, every number and length of steps, every contact and constraint list in each step", "why_tests_cant": "There are uncountably many frames and histories; an x/y asymmetry, a sign in one tensor entry or an absolute coordinate used by one joint branch shows only in some of them.", "anchors": ["space.go:Space.Step", "arbiter.go:Arbiter.PreStep", "arbiter.go:Arbiter.ApplyImpulse", "arbiter.go:Arbiter.ApplyCachedImpulse", "body.go:BodyUpdatePosition", "body.go:BodyUpdateVelocity", "everything.go:k_tensor", "pinjoint.go:PinJoint.PreStep", "groovejoint.go:GrooveJoint.PreStep"]}
{"id": "C129", "title": "The reported penetration is the least one", "statement": "For two overlapping shapes the narrow phase reports the least penetration of their cores: no displacement shorter than the reported depth takes them apart, and a displacement along the reported normal by the depth (and 1e-15) does.", "quantifier": "all pairs of shapes with at most 256 corners of coordinates up to 1e150 whose cores overlap robustly (still after any small displacement), first contact or cached corners that are still extreme; when EPA stops by itself and the two starting points differ (ideal arithmetic)", "why_tests_cant": "EPA grows a polygon by a shape-dependent number of corners; a wrong rebuild or a wrong nearest edge gives another, plausible axis only for particular pairs of polygons.", "anchors": ["collision.go:EPARecurse", "collision.go:EPA", "collision.go:GJKRecurse", "collision.go:GJK", "collision.go:MinkowskiPoint.ClosestPoints"]}
{"id": "C130", "title": "Overlapping polygons collide", "statement": "Two polygon shapes that overlap get at least one contact. (Refuted: if the hull keeps a vertex in the middle of an edge (C85), the support edge may be the wrong half of that edge, and polygons overlapping by 1 get no contact at all; without the superfluous vertex the same shapes collide.)", "quantifier": "all pairs of overlapping polygons", "why_tests_cant": "Needs three hull vertices in line and the other polygon's edge sloping the right way.", "anchors": ["collision.go:SupportEdgeForPoly", "collision.go:ContactPoints", "poly.go:NewPolyShape"]}
{"id": "C131", "title": "Contact normals are unit vectors", "statement": "The normal of two colliding shapes is a unit vector and shows how to separate them. (Refuted: two equal squares in the same place have the starting axis zero; GJK stops at once with a zero normal and depth 0, so nothing ever pushes them apart.)", "quantifier": "all pairs of overlapping shapes", "why_tests_cant": "Needs exactly coinciding centres and corners.", "anchors": ["collision.go:GJK", "collision.go:GJKRecurse", "collision.go:MinkowskiPoint.ClosestPoints"]}
{"id": "C132", "title": "A circle and a polygon collide if they overlap", "statement": "A circle and a (rounded) polygon that overlap always get exactly one contact, in either order of the arguments; a contact is reported only if they overlap, up to the factor 1+1e-15/w in the distance (w: the distance of two corners of the polygon), or if the circle's centre is in line with an edge.", "quantifier": "all circles and polygons with at most 256 corners of coordinates up to 1e150, when GJK stops by itself and the two starting points differ (ideal arithmetic)", "why_tests_cant": "The search runs over an unbounded number of corners and configurations.", "anchors": ["collision.go:CircleToPoly", "collision.go:GJK", "shape.go:ShapesCollide"]}
{"id": "C133", "title": "Overlapping polygons with well-formed corners collide", "statement": "Two convex polygons (any vertex counts, any rounding) that overlap and whose corners are neither straight nor sharp get one or two contact points from ShapesCollide, whenever the GJK search ends by itself, the overlap exceeds the 1e-15 tolerance of the edge clipping and different corner differences are at least that far apart. The normals NewPolyShape computes qualify, and moving a polygon with its body changes nothing about this. (C130 shows a straight corner breaks it.)", "quantifier": "every pair of polygons with well-formed corners, every rounding radius, every depth above the tolerance, over the reals; from id 0 and from every cached id whose corner differences are extreme", "why_tests_cant": "For every pair of overlapping polygons: a missed contact exists only for special relative positions.", "anchors": ["collision.go:PolyToPoly", "collision.go:SupportEdgeForPoly", "collision.go:ContactPoints", "collision.go:EPARecurse", "space.go:ShapesCollide"]}
{"id": "C134", "title": "A space answers the same with spatial hashes as with trees", "statement": "Calling UseSpatialHash keeps every shape, in any visiting order and with any handles. From then on BBQuery reports the same shapes, each once, PointQueryNearest reports the same distance (and a shape exactly when the tree does), and a step hands the collision function the same box-overlapping pairs, each exactly once, as a space that kept its trees. (Segment queries differ: C102, C103.)", "quantifier": "every history of both trees and every history of both hashes holding the same shapes at their present boxes, every query, filter, cell size and table size", "why_tests_cant": "The two indexes visit in different orders and share no code: agreement must hold for every placement, hash collision and history of moves.", "anchors": ["space.go:UseSpatialHash", "spacehash.go:NewSpaceHash", "spacehash.go:Insert", "spacehash.go:Query", "spacehash.go:ReindexQuery", "space.go:BBQuery", "space.go:PointQueryNearest"]}
{"id": "C135", "title": "EachArbiter shows every arbiter from the body's side", "statement": "EachArbiter calls its function once for every active arbiter of the body; the arbiter's Shapes and Bodies then give the body's own side first and the other body second. Run from the other body, the same arbiter shows the opposite Normal, the opposite TotalImpulse and the same contact points with the sides exchanged. Afterwards every arbiter is as before, so that a function may itself call EachArbiter on the same or another body and still finds its own side first when that returns.", "quantifier": "every history of arbiters being taken, met again, pushed and unthreaded, every body and arbiter, every reading callback, also nested to any depth", "why_tests_cant": "The side is a flag changed during the walk; it must be right at every call and restored after every nesting.", "anchors": ["body.go:EachArbiter", "arbiter.go:Shapes", "arbiter.go:Bodies", "arbiter.go:Normal", "arbiter.go:Next", "arbiter.go:TotalImpulse", "arbiter.go:ContactPointSet"]}
{"id": "C136", "title": "Every transform does what its name says", "statement": "Applied to any point: NewTransformTranslate adds the offset, NewTransformScale multiplies the coordinates, NewTransformRotate turns about the origin by the angle, NewTransformRigid does both, Ortho maps exactly the box onto the square from -1 to 1 (corner to corner), BoneScale takes (0,0) to the first and (1,0) to the second end of the bone and multiplies all distances by its length without mirroring, AxialScale multiplies the part along the unit axis through the pivot and keeps the part across, and Wrap does the inner transform in the outer transform's coordinates.", "quantifier": "every point, angle, offset, scale, non-empty box, bone, unit axis and pivot, every invertible outer transform, over the reals", "why_tests_cant": "Algebraic identities in up to eight real parameters; a wrong sign agrees on special points such as the origin or symmetric boxes.", "anchors": ["transform.go:NewTransformScale", "transform.go:NewTransformRotate", "transform.go:NewTransformRigid", "transform.go:Ortho", "transform.go:BoneScale", "transform.go:AxialScale", "transform.go:Wrap"]}
{"id": "C137", "title": "Interpolations start, end and stay where they should", "statement": "Vector.LerpConst stays on the way to the target, moves at most d and arrives when the target is within d. SLerp gives the first vector at 0 and the second at 1, for any two vectors, also opposite and zero ones, and in between stays in the angle between them (a combination with non-negative weights). SlerpConst with angle 0 gives the first vector and with an angle of at least pi the second, and never leaves the angle between them.", "quantifier": "every pair of vectors, every t in [0,1], every non-negative distance or angle, over the reals", "why_tests_cant": "For every pair of vectors, including the nearly parallel ones where the formula switches.", "anchors": ["vector.go:LerpConst", "vector.go:SLerp", "vector.go:SlerpConst", "vector.go:Clamp"]}
{"id": "C138", "title": "SlerpConst towards the same vector", "statement": "SlerpConst from a vector to itself gives that vector.", "quantifier": "every vector and angle", "why_tests_cant": "A single vector length decides: at length 1 the normalisation's 1e-15 hides the division by zero, at length 100 it does not.", "anchors": ["vector.go:SlerpConst", "vector.go:Normalize"]}
{"id": "C139", "title": "After ReindexShape the queries see the shape where it is", "statement": "After a static (or any) shape's body has been moved and ReindexShape was called for the moved shapes, in any order and also repeatedly, BBQuery reports exactly the accepted shapes whose present box meets the query box, each once, and PointQueryNearest the nearest shape at its present place; shapes that were not reindexed are found as before.", "quantifier": "every history of both trees, every list of reindexed shapes in the space, every new placement, query and filter", "why_tests_cant": "The shape is in one of two trees and its old fat box may or may not contain the new one; the answer must be right for every history and move.", "anchors": ["space.go:ReindexShape", "shape.go:CacheBB", "bbtree.go:ReindexObject", "bbtree.go:LeafUpdate", "space.go:BBQuery", "space.go:PointQueryNearest"]}
{"id": "C140", "title": "Joint error correction does not depend on the step size", "statement": "However a period of time is divided into steps, the fraction of a joint's position error that its corrections leave is the same, errorBias to the power of the time. A new joint has no force or bias limit and loses a tenth of its error in each sixtieth of a second.", "quantifier": "every error, every errorBias above 0, every two lists of step sizes with the same sum, over the reals", "why_tests_cant": "For every division of the time into steps.", "anchors": ["constraint.go:NewConstraint", "everything.go:bias_coef", "gearjoint.go:PreStep"]}
{"id": "C141", "title": "Switching sleeping off while bodies sleep", "statement": "With SleepTimeThreshold set back to INFINITY, Step puts no body to sleep, still wakes a sleeping body that an awake body touches, and leaves every arbiter in each of its bodies' lists once, so that traversals end.", "quantifier": "every state, every contact set, every later step", "why_tests_cant": "The failure needs a sequence: fall asleep, switch off, touch, touch again.", "anchors": ["space.go:Space.ProcessComponents", "space.go:Space.Step", "body.go:Body.PushArbiter"]}
{"id": "C142", "title": "When a body counts as idle", "statement": "A dynamic body's idle time grows by dt in each Step in which its kinetic energy is no more than at the idle speed (IdleSpeedThreshold, or the speed one step of gravity gives if that is 0) and starts again from 0 otherwise: it is the time since it last moved. So a body can only fall asleep after being idle without a break for SleepTimeThreshold.", "quantifier": "every mass, moment, velocity, gravity, threshold and history of steps", "why_tests_cant": "For every history of velocities and step sizes.", "anchors": ["space.go:Space.ProcessComponents", "body.go:Body.KineticEnergy"]}
{"id": "C143", "title": "The type of a body", "statement": "After SetType, GetType returns the type asked for; a body made static or kinematic is stopped and immovable and stays where it is; a body made dynamic again moves as before, with the mass it had.", "quantifier": "every body, both directions, over the reals and binary64", "why_tests_cant": "The type is coded in the values of two numbers.", "anchors": ["body.go:Body.SetType", "body.go:Body.GetType", "body.go:Body.AccumulateMassFromShapes"]}
