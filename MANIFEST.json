{
 "claims": [
  {
   "property": "C01",
   "status": "proved",
   "theorems": [
    "C01_intersects_iff_common_point",
    "C01_intersects_symmetric",
    "C01_contains_vect_iff",
    "C01_contains_iff_subset",
    "C01_intersects_iff_common_point_R"
   ],
   "note": "binary64-exact; also over the reals"
  },
  {
   "property": "C02",
   "status": "proved",
   "theorems": [
    "C02_merge_least_upper_bound",
    "C02_expand_least",
    "C02_contains_refl",
    "C02_contains_trans",
    "C02_offset",
    "C02_merged_area"
   ],
   "note": "binary64-exact; C02_offset and C02_merged_area are over the reals"
  },
  {
   "property": "C03",
   "status": "proved",
   "theorems": [
    "C03_segment_query_first_hit",
    "C03_segment_query_miss",
    "C03_intersects_segment_iff"
   ],
   "note": "ideal arithmetic; boxes with ordered sides"
  },
  {
   "property": "C04",
   "status": "proved",
   "theorems": [
    "C04_clamp_vect_in_box_float",
    "C04_clamp_vect_nearest",
    "C04_wrap_vect"
   ],
   "note": "membership of ClampVect is binary64-exact; nearest point and WrapVect over the reals"
  },
  {
   "property": "C05",
   "status": "proved",
   "theorems": [
    "C05_rotate_unrotate_inverse",
    "C05_rotate_isometry",
    "C05_forangle_unit_and_additive",
    "C05_perp_quarter_turn",
    "C05_normalize",
    "C05_clamp_length",
    "C05_lerp_const_no_overshoot",
    "C05_closest_point_on_segment",
    "C05_closest_dist_to_origin"
   ],
   "note": "ideal arithmetic"
  },
  {
   "property": "C06",
   "status": "proved",
   "theorems": [
    "C06_inverse_two_sided",
    "C06_mult_is_composition",
    "C06_rigid_inverse",
    "C06_rigid_preserves_distance",
    "C06_bb_least_enclosing"
   ],
   "note": "ideal arithmetic"
  },
  {
   "property": "C07",
   "status": "proved",
   "theorems": [
    "C07_frames",
    "C07_set_position",
    "C07_set_angle",
    "C07_mass_changes_keep_position",
    "C07_point_velocity"
   ],
   "note": "ideal arithmetic, every history"
  },
  {
   "property": "C08",
   "status": "proved",
   "theorems": [
    "C08_mass_from_shapes",
    "C08_shape_list",
    "C08_shape_setters",
    "C08_order_independent",
    "C08_accumulate_keeps_position"
   ],
   "note": "ideal arithmetic, every history without SetMass/SetMoment; shapes with mass <= 0 are ignored as in the code"
  },
  {
   "property": "C09",
   "status": "proved",
   "theorems": [
    "C09_hashset_is_a_finite_map",
    "C09_table_sizes_run_out"
   ],
   "note": "Pointer-level model (bins in a heap, table slots and next fields as addresses, pooled free list). The callback given to Each/Filter must not touch the set (Filter's callback is a pure predicate here); counters are unbounded."
  },
  {
   "property": "C10",
   "status": "proved",
   "theorems": [
    "C10_fat_box",
    "C10_tree_well_formed"
   ],
   "note": "binary64-exact, over every valid history; tree nodes are an inductive type (parent pointers implicit)"
  },
  {
   "property": "C11",
   "status": "proved",
   "theorems": [
    "C11_query_complete_exact"
   ],
   "note": "binary64-exact, over every valid history"
  },
  {
   "property": "C12",
   "status": "proved",
   "theorems": [
    "C12_pairs_reported_once"
   ],
   "note": "binary64-exact, over every valid history, including cached pairs and any iteration order of the leaf set"
  },
  {
   "property": "C13",
   "status": "partial",
   "theorems": [
    "C13_nan_shape_hides_others_refuted"
   ],
   "note": "false of the code: refuted by a kernel-checked witness (NaN box poisons ancestors)"
  },
  {
   "property": "C14",
   "status": "proved",
   "theorems": [
    "C14_least_answer",
    "C14_first_point"
   ],
   "note": "Rounded segments and polygons only through C14_least_answer: Vector.Normalize shortens unit normals by a relative 1e-15, so their reported hits lie up to that much outside the exact box."
  },
  {
   "property": "C15",
   "status": "proved",
   "theorems": [
    "C15_nearest_candidate",
    "C15_nearest"
   ],
   "note": "C15_nearest (reals) needs that the index has seen the shapes' current boxes and that no distance exceeds MaxFloat64."
  },
  {
   "property": "C16",
   "status": "proved",
   "theorems": [
    "C16_query",
    "C16_count",
    "C16_retains",
    "C16_pairs",
    "C16_static",
    "C16_overlap_F",
    "C16_overlap_R",
    "C16_complete_F"
   ],
   "note": "Callbacks do not use the hash themselves (a nested query advances the stamp). The recycling of bin structs is not modelled; HashSet is C09."
  },
  {
   "property": "C17",
   "status": "proved",
   "theorems": [
    "C17_own_contacts",
    "C17_not_handed_out_again"
   ],
   "note": "Refinement of the pointer-level ring (Model/Contacts.v) to one note per pair (SpecContacts.v), for every moment of every history of whole steps."
  },
  {
   "property": "C18",
   "status": "proved",
   "theorems": [
    "C18_arbiter_lists",
    "C18_each_arbiter",
    "C18_unthread",
    "C18_unthread_idle"
   ],
   "note": "At two levels: the space model's lists (SpaceProps) and the pointers themselves (ThreadProps): doubly linked lists through two threads per arbiter represent the list of arbiters pushed and not unthreaded, for every history in which only unthreaded arbiters are pushed or re-initialised."
  },
  {
   "property": "C19",
   "status": "proved",
   "theorems": [
    "C19_constraint_list_exact",
    "C19_constraints_added",
    "C19_each_constraint"
   ],
   "note": "At two levels: the space model's lists and the pointers next_a/next_b with the recursive filterConstraints."
  },
  {
   "property": "C20",
   "status": "proved",
   "theorems": [
    "C20_each_body_exact",
    "C20_one_list",
    "C20_bodies_added"
   ],
   "note": ""
  },
  {
   "property": "C21",
   "status": "proved",
   "theorems": [
    "C21_right_index",
    "C21_shape_list_exact",
    "C21_shapes_added"
   ],
   "note": ""
  },
  {
   "property": "C22",
   "status": "proved",
   "theorems": [
    "C22_only_idle_bodies_sleep",
    "C22_sleep_together",
    "C22_activate_wakes_component",
    "C22_idle_components_sleep"
   ],
   "note": "Components are defined in SpecSpace.v (linked) from contacts and constraints."
  },
  {
   "property": "C23",
   "status": "proved",
   "theorems": [
    "C23_without_waking"
   ],
   "note": "Callbacks are modelled by the bodies they call Activate on."
  },
  {
   "property": "C24",
   "status": "partial",
   "theorems": [
    "C24_which_stay_asleep",
    "C24_at_most_two",
    "C24_set_gravity_refuted"
   ],
   "note": "False for three or more sleeping components (witness): SetGravity ranges over sleepingComponents while Activate deletes from the same backing array. C24_which_stay_asleep says exactly, for any number of components, which ones stay asleep (second, fourth, ..., except the last); C24_at_most_two: all wake if and only if at most two were asleep."
  },
  {
   "property": "C25",
   "status": "partial",
   "theorems": [
    "C25_set_type_asleep_refuted"
   ],
   "note": "False (witness): SetType changes the type before it calls Activate, so a sleeping body is not woken and its shapes are removed from the dynamic index they are not in."
  },
  {
   "property": "C26",
   "status": "partial",
   "theorems": [
    "C26_wake_in_callback_refuted",
    "C26_pushed_twice_never_ends"
   ],
   "note": "False (witness): the deferred activation at the inner Unlock restores the woken bodies' sleeping arbiters into the active list, and processComponents then threads them a second time although they are still in the bodies' lists. C26_pushed_twice_never_ends proves, at pointer level and for every history, that this second push makes both lists circular, so no traversal ends."
  },
  {
   "property": "C27",
   "status": "proved",
   "theorems": [
    "C27_deferred_activation",
    "C27_order_of_waking"
   ],
   "note": "Over every sequence of Lock, Unlock and Activate calls under an outer Lock, from any reachable space; the effect of the release equals that of the same Activate calls on the unlocked space."
  },
  {
   "property": "C28",
   "status": "proved",
   "theorems": [
    "C28_once_in_order",
    "C28_run_when_unlocked",
    "C28_key_once"
   ],
   "note": "Whatever the callbacks themselves do with the queue and the lock (prog is arbitrary)."
  },
  {
   "property": "C29",
   "status": "proved",
   "theorems": [
    "C29_protocol",
    "C29_touching",
    "C29_separated",
    "C29_removed"
   ],
   "note": "The protocol is the automaton accept in SpecSpace.v; C29_separated excludes pairs whose bodies are both static or asleep (their contacts are frozen)."
  },
  {
   "property": "C30",
   "status": "proved",
   "theorems": [
    "C30_one_handler_per_pair",
    "C30_functions",
    "C30_lookup",
    "C30_calls"
   ],
   "note": "Model/Handlers.v over the pointer-level hash set; user callbacks are oracles that do not touch the arbiter."
  },
  {
   "property": "C31",
   "status": "proved",
   "theorems": [
    "C31_wildcards"
   ],
   "note": "Model/Handlers.v over the pointer-level hash set; user callbacks are oracles that do not touch the arbiter."
  },
  {
   "property": "C32",
   "status": "proved",
   "theorems": [
    "C32_user_data"
   ],
   "note": "Model/Handlers.v over the pointer-level hash set; user callbacks are oracles that do not touch the arbiter."
  },
  {
   "property": "C33",
   "status": "proved",
   "theorems": [
    "C33_reject_symmetric",
    "C33_reject_meaning"
   ],
   "note": "Model/Handlers.v over the pointer-level hash set; user callbacks are oracles that do not touch the arbiter."
  },
  {
   "property": "C34",
   "status": "proved",
   "theorems": [
    "C34_admissible",
    "C34_admissible_binary64"
   ],
   "note": "ideal arithmetic and binary64-exact (finite non-negative friction and no NaN impulses produced, see statement)"
  },
  {
   "property": "C35",
   "status": "proved",
   "theorems": [
    "C35_linear_momentum",
    "C35_angular_momentum",
    "C35_immovable",
    "C35_angular_gap"
   ],
   "note": "ideal arithmetic, any sequence of solver actions"
  },
  {
   "property": "C36",
   "status": "proved",
   "theorems": [
    "C36_contact_stops",
    "C36_contact_stops_near_unit",
    "C36_prestep"
   ],
   "note": "ideal arithmetic; C62 refutes the unconditional version"
  },
  {
   "property": "C37",
   "status": "proved",
   "theorems": [
    "C37_impulse_bounded",
    "C37_impulse_bounded_binary64"
   ],
   "note": "ideal arithmetic for all non-spring joints, binary64-exact for scalar joints; C63 refutes the excluded corners"
  },
  {
   "property": "C38",
   "status": "proved",
   "theorems": [
    "C38_third_law",
    "C38_linear_joints_in_line",
    "C38_slide_one_sided",
    "C38_rotary_one_sided",
    "C38_ratchet_one_sided"
   ],
   "note": "ideal arithmetic"
  },
  {
   "property": "C39",
   "status": "proved",
   "theorems": [
    "C39_circles",
    "C39_circle_segment"
   ],
   "note": "Over the reals; circle/circle for all positions including coincident centres; circle/segment for segments of positive length."
  },
  {
   "property": "C40",
   "status": "proved",
   "theorems": [
    "C40_collide_total",
    "C40_collide_total_ideal",
    "C40_swap"
   ],
   "note": "Totality in binary64 (NaN and infinities included) and over the reals, for every cached id. A polygon is taken to have at least one vertex (the code would index an empty slice)."
  },
  {
   "property": "C41",
   "status": "proved",
   "theorems": [
    "C41_gjk_returns",
    "C41_gjk_returns_ideal"
   ],
   "note": "For every binary64 input including NaN and infinities: the loop's flip cannot happen twice in a row (proved for float arithmetic, FloatFlip.v), all other calls increase the iteration count."
  },
  {
   "property": "C42",
   "status": "proved",
   "theorems": [
    "C42_support",
    "C42_certificate",
    "C42_separated",
    "C42_points"
   ],
   "note": "Proved over the reals by an invariant of GJK and of the EPA hull. Hypotheses: 1 to 256 corners, coordinates up to 1e150, the two starting Minkowski points differ (at 0/0 the reals and floats disagree). The reported distance is exact up to the code's own regularisation 1e-15 of Normalize; when the origin is in line with the last edge it is reported as 0 (see C83)."
  },
  {
   "property": "C43",
   "status": "proved",
   "theorems": [
    "C43_points_in_shapes",
    "C43_depth",
    "C43_count"
   ],
   "note": "Over the reals, at most 256 corners with coordinates up to 1e150; a segment's stored normal is at most 1 long (kept by rigid placement, new_segment_sound). Count: binary64, every input."
  },
  {
   "property": "C44",
   "status": "proved",
   "theorems": [
    "C44_circle",
    "C44_segment",
    "C44_polygon",
    "C44_tight_circle",
    "C44_tight_segment",
    "C44_tight_polygon"
   ],
   "note": ""
  },
  {
   "property": "C45",
   "status": "proved",
   "theorems": [
    "C45_circle",
    "C45_segment",
    "C45_polygon"
   ],
   "note": "Real arithmetic. Degenerate query points: C76. Polygons: some boundary point within MaxFloat64 of the query point (the code starts its minimum at MaxFloat64)."
  },
  {
   "property": "C46",
   "status": "proved",
   "theorems": [
    "C46_circle",
    "C46_thin_segment",
    "C46_thin_polygon"
   ],
   "note": "Circles for any radii; segments and polygons without radius. Rounded segments: see C77. Real arithmetic; the query must not be parallel to an edge it starts beyond (over the reals x/0=0; in binary64 the quotient is infinite or NaN and the edge is skipped)."
  },
  {
   "property": "C47",
   "status": "proved",
   "theorems": [
    "C47_returns",
    "C47_convex",
    "C47_contains",
    "C47_tolerance",
    "C47_strictly_convex"
   ],
   "note": "Array-level model: slices are offsets into one array, so the overlap of results and unread points is covered; recursion bounded by fuel, shown never exhausted."
  },
  {
   "property": "C48",
   "status": "proved",
   "theorems": [
    "C48_area_is_integral",
    "C48_centroid_is_integral",
    "C48_moment_is_integral",
    "C48_integrals_exist",
    "C48_circle_is_integral",
    "C48_circle_moment_is_integral",
    "C48_area_translation",
    "C48_area_cyclic",
    "C48_area_triangles",
    "C48_area_sign",
    "C48_centroid_translation",
    "C48_centroid_cyclic",
    "C48_moment_cyclic",
    "C48_moment_offset",
    "C48_moment_parallel_axis"
   ],
   "note": "Over R. The integrals are Riemann integrals (Coquelicot) over the triangles the edges form with the origin, and over concentric circles. MomentForCircle's and AreaForCircle's comments call the arguments diameters; they are radii. MomentForPoly of two vertices is a segment's (C110)."
  },
  {
   "property": "C49",
   "status": "proved",
   "theorems": [
    "C49_edges",
    "C49_edges_ideal",
    "C49_maximal",
    "C49_closed"
   ],
   "note": "binary64 for the edges, NaN and signed zeros included."
  },
  {
   "property": "C50",
   "status": "proved",
   "theorems": [
    "C50_watertight",
    "C50_border_outside",
    "C50_returns"
   ],
   "note": "binary64. Negative sample counts are not modelled."
  },
  {
   "property": "C51",
   "status": "proved",
   "theorems": [
    "C51_returns",
    "C51_open",
    "C51_closed",
    "C51_within"
   ],
   "note": "The fallback for nearby vertices is refuted separately in C89 (panic) and C90 (endless loop)."
  },
  {
   "property": "C52",
   "status": "proved",
   "theorems": [
    "C52_velocity_update",
    "C52_position_update",
    "C52_free_fall",
    "C52_kinematic",
    "C52_kinematic_velocity_binary64"
   ],
   "note": "ideal arithmetic, any number of steps; kinematic no-op also binary64"
  },
  {
   "property": "C53",
   "status": "partial",
   "theorems": [
    "C53_degenerate_refuted"
   ],
   "note": "Refuted in binary64: 0/0 is NaN in ClosestPointOnSegment."
  },
  {
   "property": "C54",
   "status": "proved",
   "theorems": [
    "C54_each_contact_once"
   ],
   "note": ""
  },
  {
   "property": "C55",
   "status": "proved",
   "theorems": [
    "C55_point_set_round_trip",
    "C55_set_get"
   ],
   "note": "ideal arithmetic"
  },
  {
   "property": "C56",
   "status": "proved",
   "theorems": [
    "C56_value",
    "C56_nonneg",
    "C56_zero_iff_rest",
    "C56_rest_binary64"
   ],
   "note": "value over the reals; rest case binary64-exact for every mass including infinity and NaN"
  },
  {
   "property": "C57",
   "status": "partial",
   "theorems": [
    "C57_set_endpoints_refuted",
    "C57_set_endpoints_same_points_partial"
   ],
   "note": "Refuted: SetEndpoints stores Perp of the direction, NewSegment ReversePerp, so the normal is the opposite one (proved for all end points). Box, distance and surface point agree (partial)."
  },
  {
   "property": "C58",
   "status": "proved",
   "theorems": [
    "C58_hash_pair_symmetric",
    "C58_hash_pair_range"
   ],
   "note": "Model/Handlers.v over the pointer-level hash set; user callbacks are oracles that do not touch the arbiter."
  },
  {
   "property": "C59",
   "status": "proved",
   "theorems": [
    "C59_pin",
    "C59_pin_prestep",
    "C59_slide",
    "C59_pivot",
    "C59_gear",
    "C59_motor",
    "C59_rotary",
    "C59_ratchet",
    "C59_prestep_masses"
   ],
   "note": "ideal arithmetic; groove joint not included in the exact-target theorems (its impulse is projected)"
  },
  {
   "property": "C60",
   "status": "proved",
   "theorems": [
    "C60_joint_bookkeeping",
    "C60_warm_start",
    "C60_spring_start",
    "C60_total_impulse"
   ],
   "note": "ideal arithmetic; C64 refutes the damped rotary spring"
  },
  {
   "property": "C61",
   "status": "partial",
   "theorems": [
    "C61_angular_momentum_refuted"
   ],
   "note": "false of the code: refuted by a witness (contact points at different positions, friction impulse)"
  },
  {
   "property": "C62",
   "status": "partial",
   "theorems": [
    "C62_friction_feedback_refuted"
   ],
   "note": "false of the code: refuted by a witness (off-centre contact with friction)"
  },
  {
   "property": "C63",
   "status": "partial",
   "theorems": [
    "C63_slide_stale_refuted",
    "C63_spring_refuted"
   ],
   "note": "false of the code: refuted by two witnesses"
  },
  {
   "property": "C64",
   "status": "partial",
   "theorems": [
    "C64_rotary_spring_refuted"
   ],
   "note": "false of the code: refuted by a witness (damping counted with the wrong sign)"
  },
  {
   "property": "C65",
   "status": "proved",
   "theorems": [
    "C65_force_world",
    "C65_impulse_world",
    "C65_local",
    "C65_force_integrated"
   ],
   "note": "Real-number model of the solver (Model/Solver.v) and body (Model/Body.v)."
  },
  {
   "property": "C66",
   "status": "proved",
   "theorems": [
    "C66_update_mixes",
    "C66_warm_start",
    "C66_cached_impulse",
    "C66_friction_stops"
   ],
   "note": "Real-number model of the solver (Model/Solver.v) and body (Model/Body.v)."
  },
  {
   "property": "C67",
   "status": "proved",
   "theorems": [
    "C67_pivot",
    "C67_pin",
    "C67_gear",
    "C67_slide",
    "C67_rotary",
    "C67_ratchet",
    "C67_groove",
    "C67_groove_one_sided",
    "C67_spring_hooke",
    "C67_spring_damping",
    "C67_rotary_spring_hooke",
    "C67_rotary_spring_damping"
   ],
   "note": "Real-number model of the solver (Model/Solver.v) and body (Model/Body.v)."
  },
  {
   "property": "C68",
   "status": "proved",
   "theorems": [
    "C68_pin",
    "C68_pivot",
    "C68_ratchet"
   ],
   "note": "Real-number model of the solver (Model/Solver.v) and body (Model/Body.v)."
  },
  {
   "property": "C69",
   "status": "partial",
   "theorems": [
    "C69_both_begin_called_refuted"
   ],
   "note": "refuted: false of the code, witness theorem"
  },
  {
   "property": "C70",
   "status": "partial",
   "theorems": [
    "C70_wildcard_as_type_ends_refuted"
   ],
   "note": "refuted: false of the code, witness theorem for every recursion depth"
  },
  {
   "property": "C71",
   "status": "partial",
   "theorems": [
    "C71_post_solve_data_refuted"
   ],
   "note": "refuted: false of the code"
  },
  {
   "property": "C72",
   "status": "proved",
   "theorems": [
    "C72_legal_calls_run"
   ],
   "note": ""
  },
  {
   "property": "C73",
   "status": "proved",
   "theorems": [
    "C73_pool_unreferenced"
   ],
   "note": ""
  },
  {
   "property": "C74",
   "status": "partial",
   "theorems": [
    "C74_post_without_pre_refuted"
   ],
   "note": "False, refuted with a witness: a sleeping contact woken by a collision is appended to the active arbiters in processComponents, solved, and its postSolve is called though the narrow phase did not see the pair in this step."
  },
  {
   "property": "C75",
   "status": "partial",
   "theorems": [
    "C75_nested_registration_dropped_refuted"
   ],
   "note": "False: the queue is truncated after the run, so such a registration (which returned true) is dropped; proved for every history that it never runs."
  },
  {
   "property": "C76",
   "status": "partial",
   "theorems": [
    "C76_circle_centre_refuted",
    "C76_segment_core_refuted",
    "C76_polygon_boundary_refuted"
   ],
   "note": ""
  },
  {
   "property": "C77",
   "status": "partial",
   "theorems": [
    "C77_late_hit_refuted",
    "C77_missed_refuted"
   ],
   "note": ""
  },
  {
   "property": "C78",
   "status": "partial",
   "theorems": [
    "C78_start_inside_refuted"
   ],
   "note": ""
  },
  {
   "property": "C79",
   "status": "partial",
   "theorems": [
    "C79_documented_sign_refuted"
   ],
   "note": ""
  },
  {
   "property": "C80",
   "status": "partial",
   "theorems": [
    "C80_two_vertices_refuted"
   ],
   "note": ""
  },
  {
   "property": "C81",
   "status": "partial",
   "theorems": [
    "C81_order_refuted"
   ],
   "note": "Refuted in binary64: a unit circle and a segment overlapping by 1/2."
  },
  {
   "property": "C82",
   "status": "partial",
   "theorems": [
    "C82_rounded_polygon_refuted"
   ],
   "note": "Refuted in binary64: unit circle against a square of rounding 1/2."
  },
  {
   "property": "C83",
   "status": "partial",
   "theorems": [
    "C83_collinear_refuted"
   ],
   "note": "Refuted in binary64: [0,1] and [2,3] on the x axis, radius 0."
  },
  {
   "property": "C84",
   "status": "partial",
   "theorems": [
    "C84_tolerance_refuted"
   ],
   "note": ""
  },
  {
   "property": "C85",
   "status": "partial",
   "theorems": [
    "C85_collinear_refuted"
   ],
   "note": ""
  },
  {
   "property": "C86",
   "status": "partial",
   "theorems": [
    "C86_visits_each_once_refuted",
    "C86_component_cut_short_refuted"
   ],
   "note": "Two reachable witnesses."
  },
  {
   "property": "C87",
   "status": "partial",
   "theorems": [
    "C87_touching_contours_refuted"
   ],
   "note": ""
  },
  {
   "property": "C88",
   "status": "partial",
   "theorems": [
    "C88_vertices_kept_close_refuted"
   ],
   "note": ""
  },
  {
   "property": "C89",
   "status": "partial",
   "theorems": [
    "C89_no_panic_refuted"
   ],
   "note": ""
  },
  {
   "property": "C90",
   "status": "partial",
   "theorems": [
    "C90_terminates_refuted"
   ],
   "note": ""
  },
  {
   "property": "C91",
   "status": "proved",
   "theorems": [
    "C91_vertices_left_out",
    "C91_sharp_kept"
   ],
   "note": ""
  },
  {
   "property": "C92",
   "status": "partial",
   "theorems": [
    "C92_stays_closed_refuted"
   ],
   "note": ""
  },
  {
   "property": "C93",
   "status": "partial",
   "theorems": [
    "C93_sharp_result_refuted"
   ],
   "note": ""
  },
  {
   "property": "C94",
   "status": "proved",
   "theorems": [
    "C94_soft_crossings",
    "C94_hard_ends",
    "C94_inside_left",
    "C94_soft_complete",
    "C94_hard_complete"
   ],
   "note": ""
  },
  {
   "property": "C95",
   "status": "proved",
   "theorems": [
    "C95_soft_closed",
    "C95_hard_closed"
   ],
   "note": "End to end through the model of polyline.go. MarchHard passes cell centres up to twice (the saddle cases), where C87 would allow open polylines; the proof shows the order of emission excludes that."
  },
  {
   "property": "C96",
   "status": "proved",
   "theorems": [
    "C96_box_query_exact"
   ],
   "note": ""
  },
  {
   "property": "C97",
   "status": "proved",
   "theorems": [
    "C97_every_shape_once"
   ],
   "note": ""
  },
  {
   "property": "C98",
   "status": "partial",
   "theorems": [
    "C98_radius_missed_refuted"
   ],
   "note": "Refuted: the trees are pruned with the unswept segment, so a shape within the radius but whose box the segment misses is lost as soon as the tree has two leaves."
  },
  {
   "property": "C99",
   "status": "partial",
   "theorems": [
    "C99_overwritten_refuted"
   ],
   "note": "Refuted: anyCollision is overwritten by every contact; a static sensor visited after a solid dynamic shape turns the answer to false."
  },
  {
   "property": "C100",
   "status": "partial",
   "theorems": [
    "C100_touch_at_end_refuted"
   ],
   "note": "Refuted: a shape touched exactly at the end (alpha 1) is reported if it is the only one in its tree and pruned otherwise."
  },
  {
   "property": "C101",
   "status": "partial",
   "theorems": [
    "C101_reindex_refuted"
   ],
   "note": "Refuted for every history: Reindex clears the table and rehashes nothing."
  },
  {
   "property": "C102",
   "status": "proved",
   "theorems": [
    "C102_segment",
    "C102_ends"
   ],
   "note": "For segments parallel to an axis the start's distance to the grid line must be 0 or at least 1/MaxFloat64 cells. The start on a grid line is C103."
  },
  {
   "property": "C103",
   "status": "partial",
   "theorems": [
    "C103_from_grid_line_refuted"
   ],
   "note": "Refuted: leaving a grid line in negative direction the walk is one cell behind and the last cell is never looked at."
  },
  {
   "property": "C104",
   "status": "partial",
   "theorems": [
    "C104_idle_pair_refuted"
   ],
   "note": "Refuted by a six-step history."
  },
  {
   "property": "C105",
   "status": "proved",
   "theorems": [
    "C105_bounded",
    "C105_ring"
   ],
   "note": ""
  },
  {
   "property": "C106",
   "status": "partial",
   "theorems": [
    "C106_self_constraint_refuted",
    "C106_removed_twice_refuted"
   ],
   "note": "Refuted for every state: remove_con is the nil dereference whatever the history was."
  },
  {
   "property": "C107",
   "status": "proved",
   "theorems": [
    "C107_setters_as_constructed",
    "C107_circle",
    "C107_polygon",
    "C107_segment"
   ],
   "note": ""
  },
  {
   "property": "C108",
   "status": "partial",
   "theorems": [
    "C108_poly_radius_refuted"
   ],
   "note": "Refuted for every polygon and every positive radius, not just one witness."
  },
  {
   "property": "C109",
   "status": "proved",
   "theorems": [
    "C109_density"
   ],
   "note": ""
  },
  {
   "property": "C110",
   "status": "proved",
   "theorems": [
    "C110_box_is_polygon",
    "C110_new_box",
    "C110_segment"
   ],
   "note": ""
  },
  {
   "property": "C111",
   "status": "partial",
   "theorems": [
    "C111_last_massive_shape_refuted"
   ],
   "note": "Binary64, for every gravity, damping, time step and any sine and cosine."
  },
  {
   "property": "C112",
   "status": "proved",
   "theorems": [
    "C112_step",
    "C112_group_is_particle",
    "C112_uniform"
   ],
   "note": "Which contacts, joints and bodies take part in each step is arbitrary; default velocity and position functions, no PreSolve/PostSolve hooks."
  },
  {
   "property": "C113",
   "status": "proved",
   "theorems": [
    "C113_static_stays",
    "C113_kinematic_course"
   ],
   "note": ""
  },
  {
   "property": "C114",
   "status": "proved",
   "theorems": [
    "C114_islands",
    "C114_island_impulses",
    "C114_shared_ground"
   ],
   "note": "For every Num instance; with shared immovable bodies over the reals. Contacts found are an input: two groups that come to touch are not isolated."
  },
  {
   "property": "C115",
   "status": "proved",
   "theorems": [
    "C115_rest_step",
    "C115_first_step",
    "C115_rest_forever"
   ],
   "note": ""
  },
  {
   "property": "C116",
   "status": "partial",
   "theorems": [
    "C116_total_impulse_refuted"
   ],
   "note": "False when the step length changes: the stored impulse is applied dt/previous dt times but is not rescaled itself. A box at rest receives (0,4) from the ground in a step twice as long as the one before, TotalImpulse says 2. With equal lengths see C60."
  },
  {
   "property": "C117",
   "status": "proved",
   "theorems": [
    "C117_pointers_never_fail",
    "C117_pointer_query",
    "C117_pointer_pairs_once",
    "C117_pointer_segment_query"
   ],
   "note": "Refinement of the pointer model (BBTreeHeap.v) to the value model of C10-C14. Node.pairs lives in the pair heap; the leaf hash set is a finite map (C09)."
  },
  {
   "property": "C118",
   "status": "proved",
   "theorems": [
    "C118_memory_bounded"
   ],
   "note": "Counting invariant on the pointer model: every node and pair made is in a tree, in a pair list or in a free list."
  },
  {
   "property": "C119",
   "status": "proved",
   "theorems": [
    "C119_contains",
    "C119_each_exact",
    "C119_each_constraint"
   ],
   "note": ""
  },
  {
   "property": "C120",
   "status": "partial",
   "theorems": [
    "C120_each_constraint_refuted"
   ],
   "note": "False: sleeping removes the constraint from the space's list (Space.Deactivate), and EachConstraint reads only that list. EachBody does walk the sleeping components; EachConstraint does not."
  },
  {
   "property": "C121",
   "status": "proved",
   "theorems": [
    "C121_setters_wake",
    "C121_collide_bodies"
   ],
   "note": ""
  },
  {
   "property": "C122",
   "status": "proved",
   "theorems": [
    "C122_steps_run",
    "C122_contacts",
    "C122_overlap_is_seen",
    "C122_circles",
    "C122_circle_segment"
   ],
   "note": "Composes C10/C12 (trees), C21/C29 (bookkeeping), C39/C44 (geometry). Which calls a space operation makes on the trees is left open (any valid calls after which the trees hold what the space's lists say); that such calls exist is proved. Segments and polygons against each other: contact is what the narrow phase says (C42, C43)."
  },
  {
   "property": "C123",
   "status": "proved",
   "theorems": [
    "C123_actions",
    "C123_contact",
    "C123_solver",
    "C123_steps",
    "C123_bounce"
   ],
   "note": "Over the reals. The hypotheses name what is left out; C124 and C125 show that the groove joint, several elastic contacts and retracted friction do add energy."
  },
  {
   "property": "C124",
   "status": "partial",
   "theorems": [
    "C124_groove_refuted"
   ],
   "note": "False of the code, and of Chipmunk: the impulse computed for both axes is projected on the groove's normal although the effective mass is not isotropic, so a bead whose anchor is off its centre of gravity is pushed across the groove (fixed point of the iteration: -2/3 of its speed) and gains 22 % energy."
  },
  {
   "property": "C125",
   "status": "partial",
   "theorems": [
    "C125_elastic_refuted",
    "C125_friction_refuted"
   ],
   "note": "False of the code: a flat box with e = 1 and two contacts gains 59 % energy in one iteration; a contact that takes back its normal impulse takes back friction and accelerates the body. True for the cases of C123."
  },
  {
   "property": "C126",
   "status": "proved",
   "theorems": [
    "C126_hull",
    "C126_area"
   ],
   "note": "Composes C47 (hull) with C45 (point query); convex_ccw was weakened to admit vertices in the middle of an edge (C85 shows that the hull may keep them), so C44-C46, C96-C98 and C122 now hold for every polygon NewPolyShape makes of points not all in line. Over the reals."
  },
  {
   "property": "C127",
   "status": "partial",
   "theorems": [
    "C127_in_line_refuted"
   ],
   "note": "False of the code: the two planes of a two-point polygon only test the side of the line, so a point on the line beyond the end counts as inside (binary64 witness)."
  },
  {
   "property": "C128",
   "status": "proved",
   "theorems": [
    "C128_turned_frame",
    "C128_turned_impulses",
    "C128_moving_frame",
    "C128_invariants"
   ],
   "note": "Over the reals; all ten joint types. The contacts reported by collision detection are given (turned) to both runs. Grooves are excepted from shifts because Normalize leaves |n| = 1/(1+1e-15) and the middle branch of PreStep multiplies coordinates measured from the origin by |n|^2: Example groove_shift_matters shows the (tiny) difference."
  },
  {
   "property": "C129",
   "status": "proved",
   "theorems": [
    "C129_least_penetration_cached",
    "C129_least_penetration"
   ],
   "note": "Over the reals. The polygon EPA keeps always surrounds the origin (clockwise edges whose cones cover the plane); convexity of the polygon is not needed."
  },
  {
   "property": "C130",
   "status": "partial",
   "theorems": [
    "C130_straight_vertex_refuted"
   ],
   "note": "Witness in binary64 through NewPolyShape."
  },
  {
   "property": "C131",
   "status": "partial",
   "theorems": [
    "C131_coinciding_refuted"
   ],
   "note": "Witness in binary64."
  },
  {
   "property": "C132",
   "status": "proved",
   "theorems": [
    "C132_circle_polygon"
   ],
   "note": ""
  },
  {
   "property": "C133",
   "status": "proved",
   "theorems": [
    "C133_polygons_collide_cached",
    "C133_polygons_collide",
    "C133_made_normals",
    "C133_moves_with_body"
   ],
   "note": "Hypotheses: every corner of both polygons well formed (record well_formed), depth d with 4e-15 <= d*k, GJK ended by itself (flag true), centres of the boxes differ in the sense that the first two support points differ."
  },
  {
   "property": "C134",
   "status": "proved",
   "theorems": [
    "C134_box_query",
    "C134_nearest",
    "C134_step_pairs",
    "C134_switch"
   ],
   "note": "C134_box_query and C134_step_pairs over binary64 for finite boxes within 2^62 cells; C134_nearest over the reals; C134_switch over both."
  },
  {
   "property": "C135",
   "status": "proved",
   "theorems": [
    "C135_each_arbiter",
    "C135_nested",
    "C135_own_side_first",
    "C135_two_views"
   ],
   "note": "The callback may read and may call EachArbiter, but does not change arbiters otherwise. C135_two_views over the reals."
  },
  {
   "property": "C136",
   "status": "proved",
   "theorems": [
    "C136_translate",
    "C136_scale",
    "C136_rotate",
    "C136_rigid",
    "C136_ortho",
    "C136_bone_scale",
    "C136_axial_scale",
    "C136_wrap"
   ],
   "note": "Over the reals."
  },
  {
   "property": "C137",
   "status": "proved",
   "theorems": [
    "C137_lerp_const",
    "C137_slerp_ends",
    "C137_slerp_between",
    "C137_slerp_const"
   ],
   "note": "Over the reals with exact acos and sin; for floating point see C138."
  },
  {
   "property": "C138",
   "status": "partial",
   "theorems": [
    "C138_slerp_const_same_vector_refuted"
   ],
   "note": "Refuted in binary64: for (100,0) both angles are acos(1)=0, the fraction is 0/0 and the result is NaN, for every acos with acos(1)=0 and every sin."
  },
  {
   "property": "C139",
   "status": "proved",
   "theorems": [
    "C139_reindexed",
    "C139_box_query",
    "C139_nearest"
   ],
   "note": "C139_reindexed and C139_box_query also in binary64 (fattening must not lose part of the box: C10_fat_box); C139_nearest over the reals. Spatial hashes: C16, C101."
  },
  {
   "property": "C140",
   "status": "proved",
   "theorems": [
    "C140_step_size",
    "C140_default",
    "C140_gear"
   ],
   "note": "About the correction PreStep asks for while it is not limited by MaxBias (C67 per joint; C140_gear makes the connection for one joint)."
  },
  {
   "property": "C141",
   "status": "partial",
   "theorems": [
    "C141_step_changes_no_sleep",
    "C141_touched_sleeper_refuted"
   ],
   "note": "Only the first clause holds: C141_step_changes_no_sleep (every state): Step with the threshold at INFINITY puts nobody to sleep and wakes nobody. So the second is false (witness C141_touched_sleeper_refuted): a sleeping body that is hit stays asleep while its contact is solved, and the next step pushes the same arbiter a second time, whether sleeping is still off or on again: the lists become circular (C26_pushed_twice_never_ends, pointer level)."
  },
  {
   "property": "C142",
   "status": "partial",
   "theorems": [
    "C142_tick",
    "C142_speed",
    "C142_rest",
    "C142_only_rest",
    "C142_free_fall",
    "C142_idle_time",
    "C142_asleep_means_idle",
    "C142_heavy_body_refuted"
   ],
   "note": "Over the reals: C142_tick, C142_speed, C142_rest, C142_only_rest, C142_free_fall (a body falling from rest is idle at its first two steps), C142_idle_time and C142_asleep_means_idle for every history. False of binary64 for very heavy bodies (C142_heavy_body_refuted): both sides of the comparison overflow, so a body of mass 2^1023 at fifty times the threshold counts as idle."
  },
  {
   "property": "C143",
   "status": "partial",
   "theorems": [
    "C143_set_type",
    "C143_stopped",
    "C143_same_type",
    "C143_back",
    "C143_set_type_binary64",
    "C143_there_and_back_refuted"
   ],
   "note": "The last clause is false (witness C143_there_and_back_refuted, binary64): a body of mass 1 without shape masses that is made kinematic and dynamic again has mass 0 and inverse mass +Inf, and its velocity is NaN after the next update (a debug build asserts). C143_back says what the mass is: that of the shapes, whatever it was. The other clauses are proved in any arithmetic with INFINITY = INFINITY and 0 <> INFINITY, so for binary64 too; the condition is that the shapes' masses do not add up to INFINITY."
  }
 ]
}