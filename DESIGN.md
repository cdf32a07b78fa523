# Formal model of jakecoffman/cp in Rocq (Coq 8.16.1)

## Layout

* `rocq/theories/Num.v` – the arithmetic interface the model is written against, with two instances:
  * `R` – ideal real arithmetic (Coq.Reals);
  * `F` – IEEE-754 binary64 (Flocq `binary_float 53 1024`, round to nearest even), with Go's exact
    `math.Min`/`math.Max`/comparison semantics on NaN, infinities and signed zeros.
  Every numeric function of the code is transcribed **once**, generically, and both instances run the same text.
* `rocq/theories/Model/*.v` – definitions only, one file per Go file (or part of it); each definition cites file:lines.
* `rocq/theories/Spec*.v` – the small specifications the theorems are stated against, written without the model's helpers
  (finite maps, lists of live arbiters, distances, hulls, histories of API calls).
* `rocq/theories/Proofs/*.v` – lemmas.
* `rocq/theories/Props/*.v` – the property theorems only, named `Cnn_…`, with short proofs, followed by
  `Print Assumptions`, with an `Example`/witness that its hypotheses are met by a concrete non-trivial case.
* suffix `_partial`: part of the property; suffix `_refuted`: the code violates the property as stated, with a witness
  (these are about the code as it is: a user must not rely on the property). Where a property is true except in a corner,
  the statement excludes the corner and the corner is a property of its own.
* `seeded/LOG.jsonl` – wrong programs (one edit of a model definition each) and the theorems that failed on them; made with `tools/seed.py`.
* `tools/manifest.py` regenerates `MANIFEST.json`, `tools/assumptions.py` the table of axioms below.

## Trusted base

* Coq 8.16.1 kernel (and `vm_compute` for the concrete witnesses).
* The axioms of the standard library listed per theorem below. No axiom of our own, no other library's.
* The reading of the Go source into Gallina (cited line by line). Go `float64` operations are taken to be IEEE-754
  double operations without fused multiply-add (Go permits fusing on some architectures, not amd64).
* `assert` is a no-op in the release build (`release.go`); assertions are modelled as preconditions, not as checks.
* `INFINITY` in the code is `math.MaxFloat64`, a finite number; the model says the same.
* Properties proved over `R` are about the same program text run with exact real numbers; rounding is not bounded.
  Properties that involve only comparisons, min and max, and all the bookkeeping, are proved for `F` or for every number type.
* Counters (`stamp`, ids) are unbounded naturals where the code has 64-bit unsigned integers.
* Go's garbage collector and `sync.Pool` are "some unused address".

### Print Assumptions, per theorem

<!-- assumptions -->
* **none (closed under the global context)**: `C09_hashset_is_a_finite_map`, `C09_table_sizes_run_out`, `C105_bounded`, `C105_ring`, `C106_removed_twice_refuted`, `C106_self_constraint_refuted`, `C114_island_impulses`, `C114_islands`, `C120_each_constraint_refuted`, `C135_each_arbiter`, `C135_nested`, `C135_own_side_first`, `C141_step_changes_no_sleep`, `C141_touched_sleeper_refuted`, `C143_back`, `C143_same_type`, `C143_set_type`, `C143_stopped`, `C17_not_handed_out_again`, `C17_own_contacts`, `C18_each_arbiter`, `C18_unthread_idle`, `C18_unthread`, `C19_each_constraint`, `C24_set_gravity_refuted`, `C25_set_type_asleep_refuted`, `C26_pushed_twice_never_ends`, `C26_wake_in_callback_refuted`, `C28_key_once`, `C28_once_in_order`, `C28_run_when_unlocked`, `C30_calls`, `C30_functions`, `C30_lookup`, `C30_one_handler_per_pair`, `C31_wildcards`, `C32_user_data`, `C33_reject_meaning`, `C33_reject_symmetric`, `C58_hash_pair_range`, `C58_hash_pair_symmetric`, `C69_both_begin_called_refuted`, `C70_wildcard_as_type_ends_refuted`, `C71_post_solve_data_refuted`, `C74_post_without_pre_refuted`, `C75_nested_registration_dropped_refuted`, `C86_component_cut_short_refuted`, `C86_visits_each_once_refuted`
* **`Classical_Prop.classic`**: `C101_reindex_refuted`, `C16_count`, `C16_pairs`, `C16_query`, `C16_retains`, `C16_static`
* **`FunctionalExtensionality.functional_extensionality_dep`**: `C119_contains`, `C119_each_constraint`, `C119_each_exact`, `C121_collide_bodies`, `C121_setters_wake`, `C18_arbiter_lists`, `C19_constraint_list_exact`, `C19_constraints_added`, `C20_bodies_added`, `C20_each_body_exact`, `C20_one_list`, `C21_right_index`, `C21_shape_list_exact`, `C21_shapes_added`, `C22_activate_wakes_component`, `C22_idle_components_sleep`, `C22_only_idle_bodies_sleep`, `C22_sleep_together`, `C23_without_waking`, `C24_at_most_two`, `C24_which_stay_asleep`, `C27_deferred_activation`, `C27_order_of_waking`, `C29_protocol`, `C29_removed`, `C29_separated`, `C29_touching`, `C72_legal_calls_run`, `C73_pool_unreferenced`
* **`ClassicalDedekindReals.sig_forall_dec`, `FunctionalExtensionality.functional_extensionality_dep`**: `C134_switch`, `C139_reindexed`
* **`ClassicalDedekindReals.sig_forall_dec`, `ClassicalDedekindReals.sig_not_dec`, `FunctionalExtensionality.functional_extensionality_dep`**: `C01_intersects_iff_common_point_R`, `C02_merged_area`, `C02_offset`, `C03_intersects_segment_iff`, `C03_segment_query_first_hit`, `C03_segment_query_miss`, `C04_clamp_vect_nearest`, `C05_clamp_length`, `C05_closest_dist_to_origin`, `C05_closest_point_on_segment`, `C05_lerp_const_no_overshoot`, `C05_normalize`, `C05_perp_quarter_turn`, `C05_rotate_isometry`, `C05_rotate_unrotate_inverse`, `C06_bb_least_enclosing`, `C06_inverse_two_sided`, `C06_mult_is_composition`, `C06_rigid_inverse`, `C102_ends`, `C104_idle_pair_refuted`, `C109_density`, `C110_box_is_polygon`, `C122_circle_segment`, `C122_circles`, `C122_overlap_is_seen`, `C123_bounce`, `C123_contact`, `C123_solver`, `C125_elastic_refuted`, `C125_friction_refuted`, `C129_least_penetration`, `C129_least_penetration_cached`, `C132_circle_polygon`, `C133_made_normals`, `C133_moves_with_body`, `C133_polygons_collide`, `C133_polygons_collide_cached`, `C135_two_views`, `C136_axial_scale`, `C136_bone_scale`, `C136_ortho`, `C136_scale`, `C136_translate`, `C136_wrap`, `C137_lerp_const`, `C139_nearest`, `C142_asleep_means_idle`, `C142_free_fall`, `C142_idle_time`, `C142_only_rest`, `C142_rest`, `C142_speed`, `C142_tick`, `C14_first_point`, `C14_least_answer`, `C15_nearest`, `C16_overlap_R`, `C34_admissible`, `C35_angular_gap`, `C36_contact_stops`, `C36_contact_stops_near_unit`, `C36_prestep`, `C39_circle_segment`, `C39_circles`, `C40_collide_total_ideal`, `C41_gjk_returns_ideal`, `C42_certificate`, `C42_points`, `C42_separated`, `C42_support`, `C43_depth`, `C43_points_in_shapes`, `C44_circle`, `C44_polygon`, `C44_segment`, `C44_tight_circle`, `C44_tight_polygon`, `C44_tight_segment`, `C45_circle`, `C45_polygon`, `C45_segment`, `C46_circle`, `C46_thin_polygon`, `C46_thin_segment`, `C47_contains`, `C47_convex`, `C47_strictly_convex`, `C47_tolerance`, `C48_centroid_cyclic`, `C48_moment_cyclic`, `C48_moment_offset`, `C49_closed`, `C49_edges_ideal`, `C49_maximal`, `C51_closed`, `C51_open`, `C51_within`, `C52_velocity_update`, `C55_point_set_round_trip`, `C55_set_get`, `C56_nonneg`, `C56_value`, `C56_zero_iff_rest`, `C57_set_endpoints_refuted`, `C57_set_endpoints_same_points_partial`, `C59_gear`, `C59_motor`, `C59_pin`, `C59_pivot`, `C59_ratchet`, `C59_rotary`, `C59_slide`, `C60_joint_bookkeeping`, `C60_total_impulse`, `C60_warm_start`, `C62_friction_feedback_refuted`, `C64_rotary_spring_refuted`, `C65_force_integrated`, `C66_cached_impulse`, `C66_friction_stops`, `C66_update_mixes`, `C66_warm_start`, `C67_groove_one_sided`, `C77_late_hit_refuted`, `C77_missed_refuted`, `C78_start_inside_refuted`, `C80_two_vertices_refuted`, `C84_tolerance_refuted`, `C85_collinear_refuted`, `C87_touching_contours_refuted`, `C88_vertices_kept_close_refuted`, `C94_hard_complete`, `C94_hard_ends`, `C94_inside_left`, `C94_soft_complete`, `C94_soft_crossings`, `C95_hard_closed`, `C95_soft_closed`, `C97_every_shape_once`
* **`ClassicalDedekindReals.sig_forall_dec`, `ClassicalDedekindReals.sig_not_dec`, `Classical_Prop.classic`, `FunctionalExtensionality.functional_extensionality_dep`**: `C01_contains_iff_subset`, `C01_contains_vect_iff`, `C01_intersects_iff_common_point`, `C01_intersects_symmetric`, `C02_contains_refl`, `C02_contains_trans`, `C02_expand_least`, `C02_merge_least_upper_bound`, `C04_clamp_vect_in_box_float`, `C04_wrap_vect`, `C05_forangle_unit_and_additive`, `C06_rigid_preserves_distance`, `C07_frames`, `C07_mass_changes_keep_position`, `C07_point_velocity`, `C07_set_angle`, `C07_set_position`, `C08_accumulate_keeps_position`, `C08_mass_from_shapes`, `C08_order_independent`, `C08_shape_list`, `C08_shape_setters`, `C100_touch_at_end_refuted`, `C102_segment`, `C103_from_grid_line_refuted`, `C107_circle`, `C107_polygon`, `C107_segment`, `C107_setters_as_constructed`, `C108_poly_radius_refuted`, `C10_fat_box`, `C10_tree_well_formed`, `C110_new_box`, `C110_segment`, `C111_last_massive_shape_refuted`, `C112_group_is_particle`, `C112_step`, `C112_uniform`, `C113_kinematic_course`, `C113_static_stays`, `C114_shared_ground`, `C115_first_step`, `C115_rest_forever`, `C115_rest_step`, `C116_total_impulse_refuted`, `C117_pointer_pairs_once`, `C117_pointer_query`, `C117_pointer_segment_query`, `C117_pointers_never_fail`, `C118_memory_bounded`, `C11_query_complete_exact`, `C122_contacts`, `C122_steps_run`, `C123_actions`, `C123_steps`, `C124_groove_refuted`, `C126_area`, `C126_hull`, `C127_in_line_refuted`, `C128_invariants`, `C128_moving_frame`, `C128_turned_frame`, `C128_turned_impulses`, `C12_pairs_reported_once`, `C130_straight_vertex_refuted`, `C131_coinciding_refuted`, `C134_box_query`, `C134_nearest`, `C134_step_pairs`, `C136_rigid`, `C136_rotate`, `C137_slerp_between`, `C137_slerp_const`, `C137_slerp_ends`, `C138_slerp_const_same_vector_refuted`, `C139_box_query`, `C13_nan_shape_hides_others_refuted`, `C140_default`, `C140_gear`, `C140_step_size`, `C142_heavy_body_refuted`, `C143_set_type_binary64`, `C143_there_and_back_refuted`, `C15_nearest_candidate`, `C16_complete_F`, `C16_overlap_F`, `C34_admissible_binary64`, `C35_angular_momentum`, `C35_immovable`, `C35_linear_momentum`, `C37_impulse_bounded_binary64`, `C37_impulse_bounded`, `C38_linear_joints_in_line`, `C38_ratchet_one_sided`, `C38_rotary_one_sided`, `C38_slide_one_sided`, `C38_third_law`, `C40_collide_total`, `C40_swap`, `C41_gjk_returns`, `C43_count`, `C47_returns`, `C48_area_cyclic`, `C48_area_is_integral`, `C48_area_sign`, `C48_area_translation`, `C48_area_triangles`, `C48_centroid_is_integral`, `C48_centroid_translation`, `C48_circle_is_integral`, `C48_circle_moment_is_integral`, `C48_integrals_exist`, `C48_moment_is_integral`, `C48_moment_parallel_axis`, `C49_edges`, `C50_border_outside`, `C50_returns`, `C50_watertight`, `C51_returns`, `C52_free_fall`, `C52_kinematic_velocity_binary64`, `C52_kinematic`, `C52_position_update`, `C53_degenerate_refuted`, `C54_each_contact_once`, `C56_rest_binary64`, `C59_pin_prestep`, `C59_prestep_masses`, `C60_spring_start`, `C61_angular_momentum_refuted`, `C63_slide_stale_refuted`, `C63_spring_refuted`, `C65_force_world`, `C65_impulse_world`, `C65_local`, `C67_gear`, `C67_groove`, `C67_pin`, `C67_pivot`, `C67_ratchet`, `C67_rotary_spring_damping`, `C67_rotary_spring_hooke`, `C67_rotary`, `C67_slide`, `C67_spring_damping`, `C67_spring_hooke`, `C68_pin`, `C68_pivot`, `C68_ratchet`, `C76_circle_centre_refuted`, `C76_polygon_boundary_refuted`, `C76_segment_core_refuted`, `C79_documented_sign_refuted`, `C81_order_refuted`, `C82_rounded_polygon_refuted`, `C83_collinear_refuted`, `C89_no_panic_refuted`, `C90_terminates_refuted`, `C91_sharp_kept`, `C91_vertices_left_out`, `C92_stays_closed_refuted`, `C93_sharp_result_refuted`, `C96_box_query_exact`, `C98_radius_missed_refuted`, `C99_overwritten_refuted`
<!-- end assumptions -->

## What is modelled

| Go file | Model file | left out |
|---|---|---|
| vector.go, bb.go, transform.go | Vector.v, BB.v, Transform.v | String, Clone |
| body.go (state, integration, mass, frames) | Body.v; lists of arbiters and constraints: Threads.v; sleeping: Space.v, SpaceCb.v | custom velocity/position functions, plain getters |
| circle.go, segment.go, poly.go, shape.go, everything.go (moments, areas) | Shapes.v; mass info and setters: ShapeMass.v; hull: Hull.v | plain getters |
| collision.go, everything.go (contacts) | Collision.v | |
| arbiter.go, contactbuffer.go, hashset_arbiter.go | Solver.v (numbers), Handlers.v (callbacks), Contacts.v (memory), Threads.v (lists), Space.v (states) | |
| the ten joints, constraint.go | Solver.v; lists: Threads.v | |
| hashset.go | HashSet.v | |
| bbtree.go, spatialindex.go | BBTree.v (values), BBTreeHeap.v (the same code with its nodes, parent pointers, pair lists and free lists in a heap; proved to agree) | collisionId (a hint) |
| spacehash.go | SpaceHash.v | recycling of bin structs |
| space.go | Space.v (bookkeeping and phases of Step), Step.v (the numbers of Step), SpaceCb.v (re-entrant calls), PostStep.v, Handlers.v, Contacts.v, Query.v | |
| polyline.go, march.go | Polyline.v, March.v | |

Not modelled: `draw.go` (debug drawing), `String()` methods, `DebugInfo`, examples, goroutine races (the library is
single-threaded by contract).

The models overlap at their borders: Space.v treats positions, contacts and callback answers as inputs of a step
(so its theorems hold for all of them); Solver.v treats the contacts as given; Contacts.v treats narrow phase and solver
as inputs; Query.v composes BBTree.v, Shapes.v and Collision.v; Step.v composes
Body.v and Solver.v over whole steps, with the contacts found as input.

## Plan per property

* **C01** Box intersection is exact and symmetric – generic BB model; F instance; order lemmas for non-NaN floats.
* **C02** Merge and Expand give the least enclosing box – same, lattice laws of Go min/max on non-NaN floats.
* **C03** BB.SegmentQuery returns the entry fraction – R instance, case analysis on the slab computation.
* **C04** ClampVect is nearest, WrapVect stays in the box – R instance, nearest-point inequality; WrapVect with math.Mod on R as truncated remainder.
* **C05** Vector algebra laws – R instance, nra/field.
* **C06** Transforms invert and transformed boxes enclose – R instance, field.
* **C07** Body position and coordinate frames – body record, op list, invariant by induction over fold_left.
* **C08** Mass accumulated from shapes – fold over shapes, closed form by induction, Permutation invariance.
* **C09** The hash set behaves as a finite map – pointer-level hash set (bin heap, table, pool; Model/HashSet.v) refined to a finite map (SpecHash.v), over every history.
* **C10** Every tree history keeps a well-formed bounding tree – functional tree + leaf map (Model/BBTree.v), invariant by induction over operation histories, F instance.
* **C11** Box queries are complete and duplicate-free – corollary of the C10 invariant.
* **C12** The broad phase reports each overlapping pair once – tree with stamps and pair cache; invariant: cache = overlapping pairs among settled leaves.
* **C13** One bad shape does not hide the others – refutation by a concrete F witness.
* **C14** Segment queries find the nearest hit – branch-and-bound lemma on trees over R, composed with the shape queries (Model/Query.v).
* **C15** PointQueryNearest finds the nearest shape – fold invariant over any visiting order.
* **C16** Spatial hash queries are complete – heap of handles, cells as chains (Model/SpaceHash.v); invariant over histories.
* **C17** Contact memory is never overwritten while referenced – ring of buffers with stamps (Model/Contacts.v) refined to one note per pair (SpecContacts.v), every history.
* **C18** Body arbiter lists are exact – list level in the space machine, and pointer level: doubly linked lists (Model/Threads.v) refined to lists (SpecThreads.v).
* **C19** Body constraint lists are exact – the same, singly linked lists with one next pointer per body and the recursive filterConstraints.
* **C20** Every body is in exactly one list – space state machine (Model/Space.v); invariant over histories.
* **C21** Every shape is in the right index – same.
* **C22** Bodies sleep and wake as whole components – flood fill as reachability; all-or-nothing sleeping.
* **C23** EachBody visits every body once – EachBody model with index loop (Model/SpaceCb.v).
* **C24** Changing gravity wakes every sleeping body – refuted from three components on; the loop over the shrinking array characterised exactly by an invariant (pre, rest, left-over tail).
* **C25** Changing the type of a sleeping body – refutation witness on the space machine.
* **C26** Waking a body inside a collision callback – refutation witness on the space machine; circularity for every history at pointer level.
* **C27** Deferred activation – lock counter + roused list, invariant over histories.
* **C28** Post-step callbacks run exactly once, in order – callback list with Go range semantics (Model/PostStep.v).
* **C29** Collision callback protocol – per-pair automaton driven by arbitrary touch histories and callback answers.
* **C30** Handler lookup ignores argument order – handler table (Model/Handlers.v over Model/HashSet.v) keyed by unordered pair.
* **C31** Wildcard handlers are combined in order – case analysis of the default functions.
* **C32** PostSolve receives the handler's user data – refutation witness.
* **C33** Filters reject symmetrically – bit-vector model over N.
* **C34** Contact impulses stay admissible – solver fold over contacts and iterations, F (order only) and R.
* **C35** The solver conserves momentum – R instance, ring, induction over iterations.
* **C36** One contact iteration stops penetration – R instance, field.
* **C37** Constraint impulses are bounded – all ten joints, bounds via Clamp and Vector.Clamp.
* **C38** Constraint impulses obey Newton's third law – all ten joints, ring.
* **C39** Circle collisions are exact – R instance.
* **C40** Collision dispatch is total – dispatch table, total over ordered class pairs.
* **C41** Narrow phase terminates – recursion on the iteration counter; antisymmetry of PointGreater incl. NaN.
* **C42** Support points are extreme and GJK's answer is a certificate – fold invariant; separating certificate by Cauchy-Schwarz.
* **C43** ShapesCollide reports penetration consistently – R instance plus refutation witness.
* **C44** Cached boxes enclose shapes – R instance, convexity.
* **C45** Point queries return signed distance – R instance.
* **C46** Shape segment queries return the first hit – R instance, quadratic formula.
* **C47** ConvexHull is the convex hull – in-place array model (Model/Hull.v); hull theorem over R.
* **C48** Polygon and circle mass properties – sums over cyclic lists.
* **C49** Polyline collection loses no edge – multiset (Permutation) of edges as invariant.
* **C50** Marching squares contours are watertight – flux at cell edges for every grid.
* **C51** SimplifyCurves stays near the curve – induction over the Douglas-Peucker recursion.
* **C52** Only dynamic bodies feel gravity and forces – integration step model.
* **C53** A degenerate segment still collides – refutation witness on F.
* **C54** ShapeQuery reports each contact once – fold over the two indexes.
* **C55** Contact point sets round-trip – R instance, ring.
* **C56** Kinetic energy is well behaved – R and F.
* **C57** Segment.SetEndpoints equals construction – refutation witness and partial positive result.
* **C58** Pair hashing is symmetric – Z mod 2^64.
* **C59** Joints meet their velocity target – solver split (Model/Solver.v, SpecSolver.v): R instance, per joint.
* **C60** Reported impulses are the applied impulses – solver split (Model/Solver.v, SpecSolver.v): R instance, per joint.
* **C61** Contacts conserve angular momentum exactly – solver split (Model/Solver.v, SpecSolver.v): R instance, per joint.
* **C62** A contact iteration stops penetration despite friction – solver split (Model/Solver.v, SpecSolver.v): R instance, per joint.
* **C63** maxForce bounds every constraint – solver split (Model/Solver.v, SpecSolver.v): R instance, per joint.
* **C64** The rotary spring reports the impulse it applies – solver split (Model/Solver.v, SpecSolver.v): R instance, per joint.
* **C65** Forces and impulses act about the centre of gravity – R instance; per joint for C67/C68.
* **C66** Refreshing a contact keeps its history – R instance; per joint for C67/C68.
* **C67** Joint preparation asks for the right correction – R instance; per joint for C67/C68.
* **C68** A fresh joint is satisfied – R instance; per joint for C67/C68.
* **C69** Both wildcard handlers are consulted – handler model, proof or witness.
* **C70** Any pair of types may be registered – handler model, proof or witness.
* **C71** postSolve receives the UserData – handler model, proof or witness.
* **C72** No legal call sequence breaks the space – space machine, invariant over histories.
* **C73** A recycled arbiter is referenced from nowhere – space machine, invariant over histories.
* **C74** postSolve follows preSolve in the same step – space machine, invariant over histories.
* **C75** Post-step callbacks registered by post-step callbacks – Model/PostStep.v, witness.
* **C76** Point queries at the core – Model/Shapes.v: R proof or witness.
* **C77** Segment queries against rounded segments – Model/Shapes.v: R proof or witness.
* **C78** Hit point of a query starting inside – Model/Shapes.v: R proof or witness.
* **C79** Documented sign of AreaForPoly – Model/Shapes.v: R proof or witness.
* **C80** MomentForPoly with two vertices – Model/Shapes.v: R proof or witness.
* **C81** ShapesCollide distances in either order – Model/Collision.v: R proof or witness.
* **C82** Circle against a rounded polygon – Model/Collision.v: R proof or witness.
* **C83** Disjoint collinear segments do not collide – Model/Collision.v: R proof or witness.
* **C84** The hull tolerance bounds the distance to the hull – Model/Hull.v, R instance.
* **C85** The hull has no redundant vertices – Model/Hull.v, R instance.
* **C86** EachBody callbacks may wake bodies – Model/SpaceCb.v, witness.
* **C87** Contours that touch are closed – Model/Polyline.v: induction, or witness.
* **C88** SimplifyCurves drops only vertices near the result – Model/Polyline.v: induction, or witness.
* **C89** SimplifyCurves does not panic – Model/Polyline.v: induction, or witness.
* **C90** SimplifyCurves terminates – Model/Polyline.v: induction, or witness.
* **C91** SimplifyVertexes leaves out vertices only – Model/Polyline.v: induction, or witness.
* **C92** SimplifyVertexes keeps closed polylines closed – Model/Polyline.v: induction, or witness.
* **C93** SimplifyVertexes reaches the minimum angle – Model/Polyline.v: induction, or witness.
* **C94** The contour is where the samples cross the threshold – Model/March.v: R proof.
* **C95** Marching squares gives closed polylines – Model/March.v: R proof.
* **C96** BBQuery finds exactly the shapes whose boxes meet the query box – Model/Query.v over the C10 invariant, or witness.
* **C97** SegmentQuery calls back once per shape entered – Model/Query.v over the C10 invariant, or witness.
* **C98** Segment queries with a radius find every shape within it – Model/Query.v over the C10 invariant, or witness.
* **C99** ShapeQuery returns true if a solid contact was found – Model/Query.v over the C10 invariant, or witness.
* **C100** Whether SegmentQuery reports a shape depends on that shape only – Model/Query.v over the C10 invariant, or witness.
* **C101** Reindex keeps the objects findable – Model/SpaceHash.v, invariant or witness.
* **C102** Segment queries on a spatial hash miss nothing on the way – Model/SpaceHash.v, invariant or witness.
* **C103** Segment queries on a spatial hash from a grid line – Model/SpaceHash.v, invariant or witness.
* **C104** A pair kept for its sleeping bodies keeps its own contacts – Model/Contacts.v: witness; counting argument over every history.
* **C105** Contact memory does not leak – Model/Contacts.v: witness; counting argument over every history.
* **C106** RemoveConstraint never panics – Model/Threads.v: every state.
* **C107** Setters leave a shape as if newly constructed – see the Props file.
* **C108** SetRadius on a polygon updates its area – see the Props file.
* **C109** Density reads back – see the Props file.
* **C110** Boxes, segments and polygons agree about moments – see the Props file.
* **C111** Removing the last massive shape leaves a body usable – see the Props file.
* **C112** An isolated group of bodies moves as one particle – see the Props file.
* **C113** Steps leave static bodies alone and kinematic bodies on their course – see the Props file.
* **C114** Islands are independent – see the Props file.
* **C115** What is at rest stays at rest – see the Props file.
* **C116** TotalImpulse after a step is the impulse applied in it – see the Props file.
* **C117** The pointers of the bounding-box tree are sound – heap of nodes and pairs with free lists (Model/BBTreeHeap.v) refined operation by operation to the value model: zippers for parent pointers, doubly linked lists for pairs.
* **C118** The bounding-box trees do not leak – counting invariant over the refinement of C117: made = in use + in a free list; a new batch is made only when the free list is empty.
* **C119** Membership and iteration tell what is in the space – history of calls (SpecSpace.happened) compared with the membership flags by induction with exec_frame; containers by the Space invariant.
* **C120** EachConstraint visits every constraint of the space – refutation: a reachable space with a sleeping pair.
* **C121** SetSensor and SetCollideBodies wake the bodies concerned and take effect in the next step – SetSensor and SetCollideBodies are operations of the Space model (SpecSpace.exec), so every earlier space theorem quantifies over them too; C29 gives the effect.
* **C122** Collision callbacks report what the geometry says – Model/World.v puts QueryReject and Collide between the trees and the Space model; SpecWorld.v: a space, its index history and its geometry stay in sync; glue from C12, C29, C39, C44.
* **C123** The solver does not make kinetic energy – SpecEnergy.v: kinetic energy after an impulse is E + J.v + J K J / 2; every calm solver action moves each accumulated impulse towards the one that stops the relative motion, which cannot pass twice the way; induction over actions, iterations and steps.
* **C124** A groove joint lets the body slide freely – refuted: witness over R, a bead anchored off its centre of gravity, for every number of iterations.
* **C125** No solver iteration makes energy – refuted: two witnesses over R.
* **C126** A polygon shape is the convex hull of its points – Model/NewPoly.v; the hull is a weakly convex polygon (C47), the region of such a polygon is the hull of its vertices (ray from a vertex leaves through an edge), C45's query then gives distance and depth.
* **C127** A polygon of points in line is a segment – refuted: binary64 witness.
* **C128** The physics does not depend on the frame of reference – SpecFrame.v maps every stored quantity to the other frame; rotation commutes with every vector operation of the solver (k_tensor by invariance of its determinant), so each prestep, cached and apply function commutes with the map; induction over links, iterations and steps.
* **C129** The reported penetration is the least one – SpecDepth.v: displaced sets and robust overlap. Invariant of EPA's polygon: every corner is an extreme difference, consecutive corners turn clockwise about the origin, and their cones cover the plane; inserting the support point keeps it (extreme corners cannot be passed), dropping corners keeps it. At the end the disc up to the nearest edge is in the Minkowski difference. GJK cannot exit before EPA because the origin is interior.
* **C130** Overlapping polygons collide – binary64 witness through new_poly_shape, evaluated in the kernel.
* **C131** Contact normals are unit vectors – binary64 witness, evaluated in the kernel.
* **C132** A circle and a polygon collide if they overlap – from the certificate of C42: the distance is at most that of nearest points, hence at most the sum of the radii when the shapes overlap.
* **C133** Overlapping polygons with well-formed corners collide – EPA ends on an edge of the Minkowski difference (from C129); the support edges in the direction of the normal are nearly perpendicular to it (slope at least the corner bluntness), so one of the two clipped end points is inside the other polygon.
* **C134** A space answers the same with spatial hashes as with trees – both sides are characterised by the members and their boxes: the tree by C11/C16/C96, the hash by C16; the two characterisations are compared.
* **C135** EachArbiter shows every arbiter from the body's side – walk of the thread list (C18) with the flag set and restored around the callback, by induction on the fuel; two views by case distinction on the side.
* **C136** Every transform does what its name says – algebra (ring, field, nsatz) on the six entries.
* **C137** Interpolations start, end and stay where they should – the 1e-15 in Normalize keeps the cosine strictly inside (-1,1), so the angle is in (0,pi) and its sine positive; then algebra.
* **C138** SlerpConst towards the same vector – refuted by computation in binary64, for every acos with acos(1)=0.
* **C139** After ReindexShape the queries see the shape where it is – the call on the tree that does not hold the shape changes nothing, so the calls are a history of moves and reindexings; C96 and C15 apply to it.
* **C140** Joint error correction does not depend on the step size – powers add up; induction on the list of steps.
* **C141** Switching sleeping off while bodies sleep – every part of Step with sleep = false keeps the sleeping roots; witness for the rest.
* **C142** When a body counts as idle – algebra for one step; induction on the history.
* **C143** The type of a body – case analysis, generic in the arithmetic; induction on the shapes for the mass.
