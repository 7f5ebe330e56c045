{"claims": [
  {"property": "C01", "status": "proved", "theorems": ["C01_point_rounding", "C01_point_rounding_monotone", "C01_point_rounding_nearest"], "note": "exact reals with the code's round-half-even to 8 decimals"},
  {"property": "C02", "status": "proved", "theorems": ["C02_point_eq_binary64", "C02_not_transitive_refuted", "C02_point_eq_iff", "C02_point_eq_separated"], "note": "exact reals and binary64; the non-transitivity is proved by C02_not_transitive_refuted"},
  {"property": "C03", "status": "proved", "theorems": ["C03_set_contract_refuted", "C03_set_identical", "C03_set_separated"], "note": "characterisation of set membership; the failing contract is proved by C03_set_contract_refuted (binary64)"},
  {"property": "C04", "status": "proved", "theorems": ["C04_validity_iff", "C04_validity_two_numbers", "C04_validity_frozen", "C04_two_coordinates_refuted", "C04_stale_validity_refuted"], "note": "any arithmetic"},
  {"property": "C05", "status": "proved", "theorems": ["C05_distance_metric", "C05_distance_eq"], "note": "exact reals"},
  {"property": "C06", "status": "proved", "theorems": ["C06_add_sub", "C06_add_sub_rounding"], "note": "exact reals"},
  {"property": "C07", "status": "proved", "theorems": ["C07_products", "C07_parallel", "C07_parallel_trans"], "note": "exact reals"},
  {"property": "C08", "status": "proved", "theorems": ["C08_on_and_right_refuted", "C08_sides", "C08_sides_reverse"], "note": "exact reals; overlap of 'right' and 'on' in binary64 by C08_on_and_right_refuted"},
  {"property": "C09", "status": "proved", "theorems": ["C09_on_line_iff", "C09_on_line_distance", "C09_internal_iff", "C09_internal_mirror_refuted", "C09_box_not_line_refuted"], "note": "exact reals"},
  {"property": "C10", "status": "proved", "theorems": ["C10_intersection_point", "C10_intersection_symmetric", "C10_intersection_error"], "note": "exact reals"},
  {"property": "C11", "status": "proved", "theorems": ["C11_line_point_distance"], "note": "exact reals"},
  {"property": "C12", "status": "proved", "theorems": ["C12_touch_iff", "C12_continuous", "C12_touch_only_one_refuted"], "note": "exact reals"},
  {"property": "C13", "status": "proved", "theorems": ["C13_common_part", "C13_common_part_sym", "C13_class_refuted", "C13_tolerance_refuted", "C13_null_segment_refuted"], "note": "exact reals, integer grid up to 2000; findings: class, tolerance and null segment cases by the _refuted theorems"},
  {"property": "C14", "status": "proved", "theorems": ["C14_proper_crossing", "C14_intersection_on_segment_sym"], "note": "exact reals"},
  {"property": "C15", "status": "proved", "theorems": ["C15_loose_equal_iff", "C15_loose_equal_equiv", "C15_eq_not_loose_refuted"], "note": "any arithmetic / exact reals"},
  {"property": "C16", "status": "proved", "theorems": ["C16_reverse", "C16_line_reversed_class_refuted"], "note": "exact reals"},
  {"property": "C17", "status": "proved", "theorems": ["C17_segment_move", "C17_segment_mirror"], "note": "heap model, exact reals with 8-decimal rounding"},
  {"property": "C18", "status": "proved", "theorems": ["C18_norm_unitvector"], "note": "exact reals"},
  {"property": "C19", "status": "proved", "theorems": ["C19_direction", "C19_direction_equal", "C19_opposite_direction"], "note": "exact reals with exact atan2"},
  {"property": "C20", "status": "proved", "theorems": ["C20_angle_domain_refuted", "C20_angle_between_lines", "C20_angle_extremes", "C20_angle_from_start_point"], "note": "exact reals; the ValueError in binary64 is C20_angle_domain_refuted"},
  {"property": "C21", "status": "proved", "theorems": ["C21_divide_line", "C21_divide_line_error"], "note": "exact reals"},
  {"property": "C22", "status": "proved", "theorems": ["C22_point_on_line_at_ratio"], "note": "exact reals"},
  {"property": "C23", "status": "proved", "theorems": ["C23_add_point_on_line"], "note": "exact reals"},
  {"property": "C24", "status": "proved", "theorems": ["C24_bounding_box", "C24_order_laws", "C24_bounding_box_exact", "C24_bounding_box_binary64", "C24_bounding_box_big_refuted"], "note": "any totally ordered arithmetic, instantiated for exact reals and binary64"},
  {"property": "C25", "status": "proved", "theorems": ["C25_close", "C25_discontinuous_refuted"], "note": "exact reals; a discontinuous line can never be closed (C25_discontinuous_refuted, any arithmetic)"},
  {"property": "C26", "status": "proved", "theorems": ["C26_discontinuity"], "note": "any arithmetic"},
  {"property": "C27", "status": "proved", "theorems": ["C27_purge", "C27_near_points_refuted", "C27_clusters", "C27_skipped"], "note": "heap model, exact reals; the failure without separation is proved by C27_near_points_refuted (binary64)"},
  {"property": "C28", "status": "proved", "theorems": ["C28_move", "C28_history", "C28_move_back", "C28_invariants", "C28_appended_point"], "note": "heap model, exact reals; any history of moves and reflections by induction"},
  {"property": "C29", "status": "proved", "theorems": ["C29_rotate", "C29_quarter_turns", "C29_rotate_about_xy"], "note": "heap model, exact reals with 8-decimal rounding"},
  {"property": "C30", "status": "proved", "theorems": ["C30_mirror", "C30_involution", "C30_invariants"], "note": "heap model, exact reals"},
  {"property": "C31", "status": "proved", "theorems": ["C31_order_cycle"], "note": "Exact reals; corners pairwise distinct also under the tolerant ==. The starting corner is the lexicographic minimum of (distance to origin, x, y)."},
  {"property": "C32", "status": "proved", "theorems": ["C32_cycle_of_first", "C32_limit", "C32_no_invention", "C32_findings_refuted"], "note": "No-invention holds in every arithmetic; the limit theorem in exact arithmetic; the other observations are binary64 witnesses (C32_findings_refuted)."},
  {"property": "C33", "status": "proved", "theorems": ["C33_append"], "note": "exact reals, value level"},
  {"property": "C34", "status": "proved", "theorems": ["C34_isconvex", "C34_isconvex_invariant", "C34_iscw_reversed", "C34_triangle_orientation", "C34_convex_orientation", "C34_iscw_nonconvex_refuted", "C34_spike_refuted"], "note": "exact reals; wrong answers for non-convex polygons and overshooting corners by the _refuted theorems (binary64)"},
  {"property": "C35", "status": "proved", "theorems": ["C35_even_odd_convex", "C35_vertex", "C35_permutation", "C35_negative_refuted", "C35_even_odd"], "note": "C35_even_odd: exact reals, every closed polygon and every draw in general position; even_odd (SpecInside.v) is the textbook half-open crossing count. C35_even_odd_convex shows that this specification is 'strictly left of all edges' for convex polygons. C35_vertex and C35_permutation hold for all draws. C35_negative_refuted is the finding for polygons with negative coordinates; C35_example meets the hypotheses with an L-shaped polygon."},
  {"property": "C36", "status": "proved", "theorems": ["C36_on_boundary_refuted"], "note": "any arithmetic; finding: the answer is never useful"},
  {"property": "C37", "status": "proved", "theorems": ["C37_hull_few", "C37_hull_set", "C37_hull_any", "C37_hull"], "note": "Exact reals. C37_hull: stored, separated inputs, including closedness, validity, convexity and orientation of the returned polygon; C37_hull_any: any reals, vertices rounded; C37_hull_set: independence of order and repetition. The docstring's 'ccw' fails for collinear inputs (reported clockwise), which the theorem states."},
  {"property": "C38", "status": "proved", "theorems": ["C38_heron", "C38_area_laws"], "note": "exact reals"},
  {"property": "C39", "status": "proved", "theorems": ["C39_angles", "C39_quality"], "note": "exact reals, vertices further apart than the tolerance"},
  {"property": "C40", "status": "proved", "theorems": ["C40_polygon_from_nodes", "C40_cw"], "note": "any arithmetic, value level"},
  {"property": "C41", "status": "proved", "theorems": ["C41_square"], "note": "heap model, exact reals"},
  {"property": "C42", "status": "proved", "theorems": ["C42_arc_rejects", "C42_arc", "C42_cw_circle_refuted"], "note": "heap model, exact reals; the cw full circle is proved not closed by C42_cw_circle_refuted in binary64"},
  {"property": "C43", "status": "proved", "theorems": ["C43_simplify", "C43_simplify_refuted", "C43_remove_outliers", "C43_cycles_kept", "C43_chain_refuted"], "note": "Exact reals, end points identical or separated; also for simplify with the points of the segments. Findings (binary64): one pass leaves new outliers on a dangling chain; simplify keeps the indifferent points of a removed segment."},
  {"property": "C44", "status": "proved", "theorems": ["C44_add"], "note": "any arithmetic; the change of the first operand is part of the theorem"},
  {"property": "C45", "status": "proved", "theorems": ["C45_insert", "C45_first_triangle", "C45_flips_keep", "C45_ccw", "C45_flip_iff", "C45_flip_delaunay", "C45_visible", "C45_makeKey", "C45_flip_replaces", "C45_flip_consistent", "C45_flip_total"], "note": "Consistency invariant for first triangle, insertion and flips (flip: diagonal not yet an edge), totality, flip criterion, circumcircle, convexity, area, no flip back. Termination and planarity: C85, C86."},
  {"property": "C46", "status": "proved", "theorems": ["C46_walk", "C46_find_loops", "C46_false_loop_refuted", "C46_walk_finds", "C46_single_loop_refuted", "C46_shared_segment_refuted", "C46_set_order_refuted", "C46_start_refused"], "note": "walk_segments and find_loops modelled with the iteration orders of sets as an oracle and with segment objects shared between polygons; order() and walk loops are bounded by fuel in the model, the theorems hold for every fuel. Findings: C46_single_loop_refuted, C46_shared_segment_refuted, C46_set_order_refuted, C46_false_loop_refuted (segments without any loop for which a loop is reported)."},
  {"property": "C47", "status": "proved", "theorems": ["C47_degree", "C47_degrees", "C47_handshake", "C47_parity", "C47_group", "C47_cycle", "C47_many_refuted"], "note": "Exact reals. purge() only merges equal points and changes nothing on separated points. Finding: C47_many_refuted (binary64)."},
  {"property": "C48", "status": "proved", "theorems": ["C48_always_empty", "C48_disjunct_refuted"], "note": "Any notion of parts, == and hash. Finding: C48_disjunct_refuted (binary64)."},
  {"property": "C49", "status": "proved", "theorems": ["C49_sound", "C49_exact", "C49_all", "C49_hash_refuted"], "note": "hash() is an oracle that may differ from call to call; the order of list(set) is an oracle. Finding: C49_hash_refuted."},
  {"property": "C50", "status": "proved", "theorems": ["C50_rooms", "C50_again", "C50_inner", "C50_total", "C50_plain", "C50_index_refuted", "C50_outside_refuted"], "note": "C50_rooms: names, order, outer walls for every run that returns. C50_inner: exact content of the inner wall when hash() is consistent (for the real, inconsistent hash of polygon lines see C49_hash_refuted; C50_rooms, C50_plain, C50_total hold for any hashes). C50_index_refuted and C50_outside_refuted are findings. The cycles, the parts of each cycle and contained_cycles are inputs of the model."},
  {"property": "C51", "status": "proved", "theorems": ["C51_entries", "C51_reported", "C51_total", "C51_vacuous_refuted"], "note": "The point-in-polygon test of a room is an oracle that may answer differently in every call (it uses random rays); deepcopy, simplify and triangulate are represented by an operation that may raise. C51_vacuous_refuted: a segment without probing points counts as passed."},
  {"property": "C52", "status": "proved", "theorems": ["C52_unique", "C52_many", "C52_foreign", "C52_symmetric_refuted"], "note": "Sets are listed in an arbitrary order. C52_symmetric_refuted: a dict equal to the reference is rejected if two rooms can be exchanged. Letters are modelled by their code points."},
  {"property": "C53", "status": "proved", "theorems": ["C53_mantel", "C53_valid", "C53_isvalid", "C53_standzarge", "C53_flat", "C53_axis_refuted"], "note": "Shape, exact mirror symmetry, closedness, graph and validity of the Mantel over exact reals; StandZarge always invalid (any arithmetic); Flachboden/RaumEnde shape; C53_axis_refuted is a binary64 finding about the axis test with ==."},
  {"property": "C54", "status": "proved", "theorems": ["C54_shape", "C54_extent", "C54_tangent", "C54_flat_refuted"], "note": "exact reals with rounding of every stored coordinate to 8 decimals; the constructor's interior/exterior point classification (intex_points) is not part of the claim. C54_flat_refuted documents the failure for h1 = 0."},
  {"property": "C55", "status": "proved", "theorems": ["C55_split_height", "C55_split_with", "C55_one_wall_refuted"], "note": "exact reals, value layer (sharing of Point objects after the cut is not part of the claim); the intex points attached by Graph.renew are not modelled. C55_one_wall_refuted documents the half-done call."},
  {"property": "C56", "status": "proved", "theorems": ["C56_missing", "C56_result", "C56_accepted", "C56_rohrboden_refuted", "C56_standzarge_refuted"], "note": "The geometric part of the constructors and hasattr of names that are not data attributes are oracles that may raise. C56_rohrboden_refuted, C56_standzarge_refuted are findings."},
  {"property": "C57", "status": "proved", "theorems": ["C57_sphere_line"], "note": "Exact reals; the tangent case and l1 = l2 raise NameError."},
  {"property": "C58", "status": "proved", "theorems": ["C58_rotationsmatrix"], "note": "exact reals"},
  {"property": "C59", "status": "proved", "theorems": ["C59_collinear_not_parallel_refuted"], "note": "binary64 counterexample to the exact-geometry expectation"},
  {"property": "C60", "status": "proved", "theorems": ["C60_midpoint_refuted"], "note": "exact reals; finding against the documented meaning"},
  {"property": "C61", "status": "proved", "theorems": ["C61_isvalid", "C61_convex_valid", "C61_overlap_refuted"], "note": "exact reals; finding C61_overlap_refuted in binary64"},
  {"property": "C62", "status": "proved", "theorems": ["C62_intersection_on_endpoint", "C62_disjoint_refuted"], "note": "Exact characterisation over the reals (symmetry, direction, totality included); the refuted theorem is a finding: True for segments with no common point."},
  {"property": "C63", "status": "proved", "theorems": ["C63_find_segment_by_point", "C63_neighbour"], "note": "find_segment_by_point in every arithmetic; neighbour over the reals on separated points."},
  {"property": "C64", "status": "proved", "theorems": ["C64_loose_equal", "C64_loose_equal_asymmetric_refuted", "C64_loose_subset"], "note": "Exact characterisations over the reals; asymmetry shown as a finding."},
  {"property": "C65", "status": "proved", "theorems": ["C65_midpoint"], "note": "Exact characterisation over the reals, for every listing of the distinct vertices."},
  {"property": "C66", "status": "proved", "theorems": ["C66_next_segment"], "note": "Every arithmetic, so including binary64."},
  {"property": "C67", "status": "proved", "theorems": ["C67_collinear_points"], "note": "Exact reals. The order of iteration over the segments is the list's; the sets are compared as sets."},
  {"property": "C68", "status": "proved", "theorems": ["C68_remove_collinear", "C68_integer_corners", "C68_nothing_to_remove", "C68_limit", "C68_mixed_directions_refuted"], "note": "Exact reals; C68_mixed_directions_refuted is a binary64 finding (two segments starting at a flat corner)."},
  {"property": "C69", "status": "proved", "theorems": ["C69_ear_clipping", "C69_areas"], "note": "Exact reals; set orders, random draws and answers about internal points are arbitrary oracles."},
  {"property": "C70", "status": "proved", "theorems": ["C70_area", "C70_triangulated", "C70_degenerate", "C70_cache", "C70_fresh", "C70_stale_refuted"], "note": "Exact reals for the value, every arithmetic for the cache. The library's answers are restricted to triangles on the given corners (no added points). C70_stale_refuted: the cached area of a polygon closed afterwards."},
  {"property": "C71", "status": "proved", "theorems": ["C71_nested_refuted", "C71_nested_inside_refuted", "C71_touch", "C71_congruent", "C71_enclosed", "C71_overlap", "C71_disjunct"], "note": "Exact reals on the integer grid up to 2000 (as C13); answers about internal points are arbitrary. C71_nested_refuted / C71_nested_inside_refuted: nested triangles reported disjunct."},
  {"property": "C72", "status": "proved", "theorems": ["C72_polygons"], "note": "Every arithmetic."},
  {"property": "C73", "status": "proved", "theorems": ["C73_path", "C73_duplicates", "C73_empty", "C73_not_shortest_refuted"], "note": "Exact reals; C73_not_shortest_refuted is a binary64 finding against the docstring."},
  {"property": "C74", "status": "proved", "theorems": ["C74_rooms", "C74_all", "C74_few", "C74_nested_refuted", "C74_hash_refuted", "C74_lost_refuted"], "note": "Exact reals, loops of segments of any one class (walls included), any hashes, any triangulation library and any (repeatable) answers about internal points. Findings (binary64): three triangles nested in each other raise; a loop found in both directions raises when hash() changes from call to call; a room whose area happens to be the sum of two others is lost."},
  {"property": "C75", "status": "proved", "theorems": ["C75_contained", "C75_interior", "C75_notch_refuted"], "note": "Exact reals, any answers; the second theorem for tests that are right for convex counterclockwise polygons. Finding (binary64): a triangle in the notch of an L counts as contained in the L although all its corners are reported outside of the L."},
  {"property": "C76", "status": "proved", "theorems": ["C76_cycles", "C76_shared_refuted"], "note": "Exact reals. Finding (binary64): with two square rooms that share a wall, ordering the second turns the wall round and the first polygon is not continuous any more."},
  {"property": "C77", "status": "proved", "theorems": ["C77_edgelist", "C77_typeerror"], "note": "The first theorem in every arithmetic, the TypeError for ordinary groups over the reals. The segments are those after purge() (modelled in MHeap.v), which the call does first."},
  {"property": "C78", "status": "proved", "theorems": ["C78_lookup", "C78_names", "C78_own_names"], "note": "Lookup and names in every arithmetic, own names over the reals."},
  {"property": "C79", "status": "proved", "theorems": ["C79_mantel", "C79_apex_refuted", "C79_uneven_refuted", "C79_head", "C79_axis_refuted", "C79_flat", "C79_flat_internal"], "note": "Exact reals with the rounding to 8 decimals. Findings: coinciding points at an apex; the offset's cap of 0.002 works only for the right wall (the left one gets d/100000); binary64: axis at 1/3."},
  {"property": "C80", "status": "proved", "theorems": ["C80_renew", "C80_mantel"], "note": "The collection in every arithmetic; the Mantel over the reals. KegelKrempe uses the same code with other constants."},
  {"property": "C81", "status": "proved", "theorems": ["C81_sharp", "C81_small", "C81_twice_refuted", "C81_tall_refuted", "C81_gap_refuted", "C81_refused"], "note": "Exact reals with the rounding to 8 decimals, r = 0 (r > 0: C82); a transition asked for with parts that do not fit is refused. Findings: AssertionError for a tall cone (binary64); walls that do not meet are accepted (binary64); a cone given twice overlaps the transition."},
  {"property": "C82", "status": "proved", "theorems": ["C82_round", "C82_small"], "note": "Exact reals with the rounding to 8 decimals; cylindrical shell, the cone not nearly cylindrical (height at most 100 times the change of the radius), h_oben and h_unten reaching beyond the arc. A transition that ends on the arc itself is in the model, not in the theorem."},
  {"property": "C83", "status": "proved", "theorems": ["C83_in_turn", "C83_one_part", "C83_missed", "C83_inner_refuted", "C83_outer_refuted"], "note": "Exact reals with the rounding to 8 decimals; walls that do not cross each other or end near the height of the RaumEnde, which itself does not end near a wall; each part is met in none, one or two walls. One RaumEnde. Findings: nested parts."},
  {"property": "C84", "status": "proved", "theorems": ["C84_kept", "C84_fresh", "C84_delaunay_refuted", "C84_untriangulated", "C84_stale_refuted"], "note": "Every arithmetic; the finding about moved polygons over the reals. Exceptions inside ear clipping or the mesh leave no triangles in the model."},
  {"property": "C85", "status": "proved", "theorems": ["C85_flips_end"], "note": "Exact reals; termination by a lifted volume that strictly decreases and finitely many lists of triangles. Every visiting order that looks at each edge of a round at least once."},
  {"property": "C86", "status": "proved", "theorems": ["C86_triangulate", "C86_add", "C86_flat"], "note": "Exact reals, coordinates multiples of 1e-8, general position (no three points nearly on one line). Finding: points on the line of a boundary edge make triangles without area."},
  {"property": "C87", "status": "proved", "theorems": ["C87_stored", "C87_again", "C87_sum", "C87_compare", "C87_undo", "C87_history", "C87_opposite", "C87_restored", "C87_tolerance_refuted", "C87_large_refuted"], "note": "Binary64 (SpecFloat, related to the reals with Flocq); any libm. Range: coordinates up to 1e6 at every point of the history, end points identical or more than 1e-5 apart. Findings: == at exactly 1e-5; decimals are lost at 1e8. Uses Classical_Prop.classic (through Flocq)."},
  {"property": "C88", "status": "proved", "theorems": ["C88_products", "C88_distance", "C88_side", "C88_relations", "C88_polygon", "C88_hull", "C88_parallel_refuted"], "note": "Binary64 (SpecFloat, related to the reals with Flocq); any libm. Coordinates are multiples of 1/256 up to 65536. The hull is the one before the final purge(), as in C37. Findings: parallel segments with decimals, segments with very large coordinates. Uses Classical_Prop.classic (through Flocq)."},
  {"property": "C89", "status": "proved", "theorems": ["C89_error", "C89_right", "C89_chain", "C89_three", "C89_collinear", "C89_right_refuted"], "note": "Binary64 (SpecFloat, related to the reals with Flocq); any libm. Three ranges of coordinates, see the statement. Finding: a Point on the line reported right of it. Uses Classical_Prop.classic (through Flocq)."},
  {"property": "C90", "status": "proved", "theorems": ["C90_intersection", "C90_crossing", "C90_common", "C90_valid", "C90_convex", "C90_orientation", "C90_points"], "note": "Binary64 (SpecFloat, related to the reals with Flocq); any libm. Whole coordinates up to 2000, the grid of C13 and C14. The common part of parallel segments depends on libm (direction) and is not covered. Uses Classical_Prop.classic (through Flocq)."},
  {"property": "C91", "status": "proved", "theorems": ["C91_no_loop_missed", "C91_missed_only_shared", "C91_plan", "C91_dead_end", "C91_lost_room_refuted", "C91_same_loop_twice_refuted", "C91_once"], "note": "Exact reals; end points identical or separated, fewer than 250 segments (order() gives up beyond). The findings are computed in binary64. C91_once: no loop is reported twice when any two loops have a common corner."},
  {"property": "C92", "status": "proved", "theorems": ["C92_order", "C92_walk", "C92_find_loops", "C92_order_cycle", "C92_no_loop_missed", "C92_missed_only_shared", "C92_dead_end", "C92_walk_finds", "C92_single_loop_refuted", "C92_group", "C92_segments"], "note": "Binary64 (Flocq), whole coordinates up to 2000, any libm. The exact schedule is constructed round by round from the running one. The corollaries are C31, C46, C47 and C91 for the running program."},
  {"property": "C93", "status": "proved", "theorems": ["C93_refine", "C93_refine_refused", "C93_internal_points", "C93_internal_points_end", "C93_constraint", "C93_relpos", "C93_ordered_copy_refuted", "C93_from_points", "C93_degree", "C93_room", "C93_size"], "note": "Exact numbers for refine_boundaries, segments_from_points, node_degree and characteristic_size; any arithmetic for add_internal_points, tell_relpos and the room; binary64 on whole coordinates for intersectsConstraint. ordered_copy is a finding."},
  {"property": "C94", "status": "proved", "theorems": ["C94_even_odd"], "note": "Binary64 throughout (any libm: none of its functions is used). The condition on the rays is stated with the unrounded ray end; rays through or very near a corner are excluded, as in C35."},
  {"property": "C95", "status": "proved", "theorems": ["C95_one_loop", "C95_one_room"], "note": "Exact reals, any hashes, any set order. C46_single_loop_refuted shows what happens when walking finds the only loop of a graph that has no other segments (IndexError). The triangulation is assumed not to fail on the loop found."},
  {"property": "C96", "status": "proved", "theorems": ["C96_one_loop", "C96_walls", "C96_plain_refuted", "C96_one_room", "C96_walk_ends", "C96_finds", "C96_room", "C96_whole"], "note": "Exact reals for any set order; C96_whole carries find_loops to binary64 on whole coordinates. That the vessel is found at all rests on an accident: line_reversed gives a plain LineSegment, which never equals a Wall, so turned walls stay in the graph (C96_walls); with plain segments the second walk is over an empty graph (C96_plain_refuted), and the same for walls that all run one way round (C46_single_loop_refuted). C96_room assumes that the triangulation of the loop does not fail."},
  {"property": "C97", "status": "proved", "theorems": ["C97_endless_refuted", "C97_find_loops_refuted", "C97_ends", "C97_no_loop", "C97_whole"], "note": "C97_ends and C97_no_loop for exact reals, C97_whole for binary64 on whole coordinates. Finding (C97_endless_refuted, C97_find_loops_refuted): segments are reversed inside a set, are not found by discard afterwards and so stay in _not_visited; once all segments of a loop are in that state and _has_branch is set, the while loop goes round the loop for ever. The order used is the one of CPython 3.11's hash tables for these coordinates, as far as it could be determined from the hashes of the coordinate tuples; the theorem only claims that it is an order of the sets."},
  {"property": "C98", "status": "proved", "theorems": ["C98_intex", "C98_polygon", "C98_one_room", "C98_loop", "C98_whole"], "note": "C98_one_room, C98_loop and C98_intex for exact reals: the walls and probe points are those made by the constructors of the parts (mantel_segments, flachboden_segments, head_graph, intex_points, Graph.renew), not assumed to form a loop or to lie on a side. C98_intex assumes that the random-ray test answers by the even-odd rule off the walls; C35_even_odd says for which rays it does. C98_whole is the loop in binary64, for whole sizes (flat ends, and heads whose diameter is a multiple of 1000). Not covered: nozzles, skirts and parts whose sizes have more than 8 decimals."},
  {"property": "C99", "status": "proved", "theorems": ["C99_loops", "C99_all_found", "C99_in_general", "C99_room_lost_refuted", "C99_overlap_refuted", "C99_each_once", "C99_whole"], "note": "C99_loops, C99_all_found and C99_in_general for exact reals, with the walls made by the constructors of the parts. What walking itself returns is not limited to the three loops by these theorems (C46_false_loop_refuted shows why it cannot be in general). C99_whole is C99_all_found in binary64 for whole sizes. Findings in binary64: C99_room_lost_refuted, C99_overlap_refuted. C99_each_once: each of the three is reported exactly once then."},
  {"property": "C100", "status": "proved", "theorems": ["C100_two_rooms", "C100_outline"], "note": "Exact reals. C100_outline is the choice of the base polygons for any two loops and their outline; C100_two_rooms is the whole run, from the constructors of the parts to the rooms. Its hypotheses about the triangulation (areas that add up, no clashes) are what an exact triangulation gives; that walking finds no loop first depends on the order of the walls (C99_room_lost_refuted, C99_overlap_refuted show what happens otherwise). C100_example meets all hypotheses (two cones with a plate); C100_run_example is a run in binary64."},
  {"property": "C101", "status": "proved", "theorems": ["C101_stories"], "note": "Exact reals. C101_stories is for any number of plates; that raum_erstellen makes these rooms is C98 (no plate) and C100 (one plate). The tests for inner points may answer anything for points on the walls. The corners vs exist (C98_polygon). C101_stories_example is a vessel with two plates that meets all hypotheses."},
  {"property": "C102", "status": "proved", "theorems": ["C102_head", "C102_polygon", "C102_short_refuted"], "note": "Exact reals. C102_head is what is reported for the head; the other parts of the vessel may be anything (C103 is about them). C102_polygon: the walls of both rooms are the edges of a polygon, so that the hypotheses about the corners can be met; C102_head_example is a vessel that meets all of them. That raum_erstellen finds these two rooms is not part of this property (for a flat plate this is C100). C102_short_refuted (a finding): if the shell into which the head bulges is shorter than half the height of the head's graph, the room there is not reported for the head at all."},
  {"property": "C103", "status": "proved", "theorems": ["C103_other_parts", "C103_table"], "note": "Exact reals. C103_other_parts is for one part with a name of its own, among any other rooms and parts. C103_table is the whole table of a vessel with the two rooms, whose parts have different names (it includes C102). C102_polygon shows that the hypotheses about the corners can be met; C103_table_example and C103_other_parts_example are a vessel that meets all of them. That raum_erstellen finds these two rooms is not part of this property."}
]}
