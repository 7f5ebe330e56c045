{
"C01": ["proved", "exact reals with the code's round-half-even to 8 decimals"],
"C02": ["proved", "exact reals and binary64; the non-transitivity is proved by C02_not_transitive_refuted"],
"C03": ["proved", "characterisation of set membership; the failing contract is proved by C03_set_contract_refuted (binary64)"],
"C04": ["proved", "any arithmetic"],
"C05": ["proved", "exact reals"],
"C06": ["proved", "exact reals"],
"C07": ["proved", "exact reals"],
"C08": ["proved", "exact reals; overlap of 'right' and 'on' in binary64 by C08_on_and_right_refuted"],
"C09": ["proved", "exact reals"],
"C10": ["proved", "exact reals"],
"C100": ["proved", "Exact reals. C100_outline is the choice of the base polygons for any two loops and their outline; C100_two_rooms is the whole run, from the constructors of the parts to the rooms. Its hypotheses about the triangulation (areas that add up, no clashes) are what an exact triangulation gives; that walking finds no loop first depends on the order of the walls (C99_room_lost_refuted, C99_overlap_refuted show what happens otherwise). C100_example meets all hypotheses (two cones with a plate); C100_run_example is a run in binary64."],
"C101": ["proved", "Exact reals. C101_stories is for any number of plates; that raum_erstellen makes these rooms is C98 (no plate) and C100 (one plate). The tests for inner points may answer anything for points on the walls. The corners vs exist (C98_polygon). C101_stories_example is a vessel with two plates that meets all hypotheses."],
"C102": ["proved", "Exact reals. C102_head is what is reported for the head; the other parts of the vessel may be anything (C103 is about them). C102_polygon: the walls of both rooms are the edges of a polygon, so that the hypotheses about the corners can be met; C102_head_example is a vessel that meets all of them. That raum_erstellen finds these two rooms is not part of this property (for a flat plate this is C100). C102_short_refuted (a finding): if the shell into which the head bulges is shorter than half the height of the head's graph, the room there is not reported for the head at all."],
"C103": ["proved", "Exact reals. C103_other_parts is for one part with a name of its own, among any other rooms and parts. C103_table is the whole table of a vessel with the two rooms, whose parts have different names (it includes C102). C102_polygon shows that the hypotheses about the corners can be met; C103_table_example and C103_other_parts_example are a vessel that meets all of them. That raum_erstellen finds these two rooms is not part of this property."],
"C11": ["proved", "exact reals"],
"C12": ["proved", "exact reals"],
"C13": ["proved", "exact reals, integer grid up to 2000; findings: class, tolerance and null segment cases by the _refuted theorems"],
"C14": ["proved", "exact reals"],
"C15": ["proved", "any arithmetic / exact reals"],
"C16": ["proved", "exact reals"],
"C17": ["proved", "heap model, exact reals with 8-decimal rounding"],
"C18": ["proved", "exact reals"],
"C19": ["proved", "exact reals with exact atan2"],
"C20": ["proved", "exact reals; the ValueError in binary64 is C20_angle_domain_refuted"],
"C21": ["proved", "exact reals"],
"C22": ["proved", "exact reals"],
"C23": ["proved", "exact reals"],
"C24": ["proved", "any totally ordered arithmetic, instantiated for exact reals and binary64"],
"C25": ["proved", "exact reals; a discontinuous line can never be closed (C25_discontinuous_refuted, any arithmetic)"],
"C26": ["proved", "any arithmetic"],
"C27": ["proved", "heap model, exact reals; the failure without separation is proved by C27_near_points_refuted (binary64)"],
"C28": ["proved", "heap model, exact reals; any history of moves and reflections by induction"],
"C29": ["proved", "heap model, exact reals with 8-decimal rounding"],
"C30": ["proved", "heap model, exact reals"],
"C31": ["proved", "Exact reals; corners pairwise distinct also under the tolerant ==. The starting corner is the lexicographic minimum of (distance to origin, x, y)."],
"C32": ["proved", "No-invention holds in every arithmetic; the limit theorem in exact arithmetic; the other observations are binary64 witnesses (C32_findings_refuted)."],
"C33": ["proved", "exact reals, value level"],
"C34": ["proved", "exact reals; wrong answers for non-convex polygons and overshooting corners by the _refuted theorems (binary64)"],
"C35": ["proved", "C35_even_odd: exact reals, every closed polygon and every draw in general position; even_odd (SpecInside.v) is the textbook half-open crossing count. C35_even_odd_convex shows that this specification is 'strictly left of all edges' for convex polygons. C35_vertex and C35_permutation hold for all draws. C35_negative_refuted is the finding for polygons with negative coordinates; C35_example meets the hypotheses with an L-shaped polygon."],
"C36": ["proved", "any arithmetic; finding: the answer is never useful"],
"C37": ["proved", "Exact reals. C37_hull: stored, separated inputs, including closedness, validity, convexity and orientation of the returned polygon; C37_hull_any: any reals, vertices rounded; C37_hull_set: independence of order and repetition. The docstring's 'ccw' fails for collinear inputs (reported clockwise), which the theorem states."],
"C38": ["proved", "exact reals"],
"C39": ["proved", "exact reals, vertices further apart than the tolerance"],
"C40": ["proved", "any arithmetic, value level"],
"C41": ["proved", "heap model, exact reals"],
"C42": ["proved", "heap model, exact reals; the cw full circle is proved not closed by C42_cw_circle_refuted in binary64"],
"C43": ["proved", "Exact reals, end points identical or separated; also for simplify with the points of the segments. Findings (binary64): one pass leaves new outliers on a dangling chain; simplify keeps the indifferent points of a removed segment."],
"C44": ["proved", "any arithmetic; the change of the first operand is part of the theorem"],
"C45": ["proved", "Consistency invariant for first triangle, insertion and flips (flip: diagonal not yet an edge), totality, flip criterion, circumcircle, convexity, area, no flip back. Termination and planarity: C85, C86."],
"C46": ["proved", "walk_segments and find_loops modelled with the iteration orders of sets as an oracle and with segment objects shared between polygons; order() and walk loops are bounded by fuel in the model, the theorems hold for every fuel. Findings: C46_single_loop_refuted, C46_shared_segment_refuted, C46_set_order_refuted, C46_false_loop_refuted (segments without any loop for which a loop is reported)."],
"C47": ["proved", "Exact reals. purge() only merges equal points and changes nothing on separated points. Finding: C47_many_refuted (binary64)."],
"C48": ["proved", "Any notion of parts, == and hash. Finding: C48_disjunct_refuted (binary64)."],
"C49": ["proved", "hash() is an oracle that may differ from call to call; the order of list(set) is an oracle. Finding: C49_hash_refuted."],
"C50": ["proved", "C50_rooms: names, order, outer walls for every run that returns. C50_inner: exact content of the inner wall when hash() is consistent (for the real, inconsistent hash of polygon lines see C49_hash_refuted; C50_rooms, C50_plain, C50_total hold for any hashes). C50_index_refuted and C50_outside_refuted are findings. The cycles, the parts of each cycle and contained_cycles are inputs of the model."],
"C51": ["proved", "The point-in-polygon test of a room is an oracle that may answer differently in every call (it uses random rays); deepcopy, simplify and triangulate are represented by an operation that may raise. C51_vacuous_refuted: a segment without probing points counts as passed."],
"C52": ["proved", "Sets are listed in an arbitrary order. C52_symmetric_refuted: a dict equal to the reference is rejected if two rooms can be exchanged. Letters are modelled by their code points."],
"C53": ["proved", "Shape, exact mirror symmetry, closedness, graph and validity of the Mantel over exact reals; StandZarge always invalid (any arithmetic); Flachboden/RaumEnde shape; C53_axis_refuted is a binary64 finding about the axis test with ==."],
"C54": ["proved", "exact reals with rounding of every stored coordinate to 8 decimals; the constructor's interior/exterior point classification (intex_points) is not part of the claim. C54_flat_refuted documents the failure for h1 = 0."],
"C55": ["proved", "exact reals, value layer (sharing of Point objects after the cut is not part of the claim); the intex points attached by Graph.renew are not modelled. C55_one_wall_refuted documents the half-done call."],
"C56": ["proved", "The geometric part of the constructors and hasattr of names that are not data attributes are oracles that may raise. C56_rohrboden_refuted, C56_standzarge_refuted are findings."],
"C57": ["proved", "Exact reals; the tangent case and l1 = l2 raise NameError."],
"C58": ["proved", "exact reals"],
"C59": ["proved", "binary64 counterexample to the exact-geometry expectation"],
"C60": ["proved", "exact reals; finding against the documented meaning"],
"C61": ["proved", "exact reals; finding C61_overlap_refuted in binary64"],
"C62": ["proved", "Exact characterisation over the reals (symmetry, direction, totality included); the refuted theorem is a finding: True for segments with no common point."],
"C63": ["proved", "find_segment_by_point in every arithmetic; neighbour over the reals on separated points."],
"C64": ["proved", "Exact characterisations over the reals; asymmetry shown as a finding."],
"C65": ["proved", "Exact characterisation over the reals, for every listing of the distinct vertices."],
"C66": ["proved", "Every arithmetic, so including binary64."],
"C67": ["proved", "Exact reals. The order of iteration over the segments is the list's; the sets are compared as sets."],
"C68": ["proved", "Exact reals; C68_mixed_directions_refuted is a binary64 finding (two segments starting at a flat corner)."],
"C69": ["proved", "Exact reals; set orders, random draws and answers about internal points are arbitrary oracles."],
"C70": ["proved", "Exact reals for the value, every arithmetic for the cache. The library's answers are restricted to triangles on the given corners (no added points). C70_stale_refuted: the cached area of a polygon closed afterwards."],
"C71": ["proved", "Exact reals on the integer grid up to 2000 (as C13); answers about internal points are arbitrary. C71_nested_refuted / C71_nested_inside_refuted: nested triangles reported disjunct."],
"C72": ["proved", "Every arithmetic."],
"C73": ["proved", "Exact reals; C73_not_shortest_refuted is a binary64 finding against the docstring."],
"C74": ["proved", "Exact reals, loops of segments of any one class (walls included), any hashes, any triangulation library and any (repeatable) answers about internal points. Findings (binary64): three triangles nested in each other raise; a loop found in both directions raises when hash() changes from call to call; a room whose area happens to be the sum of two others is lost."],
"C75": ["proved", "Exact reals, any answers; the second theorem for tests that are right for convex counterclockwise polygons. Finding (binary64): a triangle in the notch of an L counts as contained in the L although all its corners are reported outside of the L."],
"C76": ["proved", "Exact reals. Finding (binary64): with two square rooms that share a wall, ordering the second turns the wall round and the first polygon is not continuous any more."],
"C77": ["proved", "The first theorem in every arithmetic, the TypeError for ordinary groups over the reals. The segments are those after purge() (modelled in MHeap.v), which the call does first."],
"C78": ["proved", "Lookup and names in every arithmetic, own names over the reals."],
"C79": ["proved", "Exact reals with the rounding to 8 decimals. Findings: coinciding points at an apex; the offset's cap of 0.002 works only for the right wall (the left one gets d/100000); binary64: axis at 1/3."],
"C80": ["proved", "The collection in every arithmetic; the Mantel over the reals. KegelKrempe uses the same code with other constants."],
"C81": ["proved", "Exact reals with the rounding to 8 decimals, r = 0 (r > 0: C82); a transition asked for with parts that do not fit is refused. Findings: AssertionError for a tall cone (binary64); walls that do not meet are accepted (binary64); a cone given twice overlaps the transition."],
"C82": ["proved", "Exact reals with the rounding to 8 decimals; cylindrical shell, the cone not nearly cylindrical (height at most 100 times the change of the radius), h_oben and h_unten reaching beyond the arc. A transition that ends on the arc itself is in the model, not in the theorem."],
"C83": ["proved", "Exact reals with the rounding to 8 decimals; walls that do not cross each other or end near the height of the RaumEnde, which itself does not end near a wall; each part is met in none, one or two walls. One RaumEnde. Findings: nested parts."],
"C84": ["proved", "Every arithmetic; the finding about moved polygons over the reals. Exceptions inside ear clipping or the mesh leave no triangles in the model."],
"C85": ["proved", "Exact reals; termination by a lifted volume that strictly decreases and finitely many lists of triangles. Every visiting order that looks at each edge of a round at least once."],
"C86": ["proved", "Exact reals, coordinates multiples of 1e-8, general position (no three points nearly on one line). Finding: points on the line of a boundary edge make triangles without area."],
"C87": ["proved", "Binary64 (SpecFloat, related to the reals with Flocq); any libm. Range: coordinates up to 1e6 at every point of the history, end points identical or more than 1e-5 apart. Findings: == at exactly 1e-5; decimals are lost at 1e8. Uses Classical_Prop.classic (through Flocq)."],
"C88": ["proved", "Binary64 (SpecFloat, related to the reals with Flocq); any libm. Coordinates are multiples of 1/256 up to 65536. The hull is the one before the final purge(), as in C37. Findings: parallel segments with decimals, segments with very large coordinates. Uses Classical_Prop.classic (through Flocq)."],
"C89": ["proved", "Binary64 (SpecFloat, related to the reals with Flocq); any libm. Three ranges of coordinates, see the statement. Finding: a Point on the line reported right of it. Uses Classical_Prop.classic (through Flocq)."],
"C90": ["proved", "Binary64 (SpecFloat, related to the reals with Flocq); any libm. Whole coordinates up to 2000, the grid of C13 and C14. The common part of parallel segments depends on libm (direction) and is not covered. Uses Classical_Prop.classic (through Flocq)."],
"C91": ["proved", "Exact reals; end points identical or separated, fewer than 250 segments (order() gives up beyond). The findings are computed in binary64. C91_once: no loop is reported twice when any two loops have a common corner."],
"C92": ["proved", "Binary64 (Flocq), whole coordinates up to 2000, any libm. The exact schedule is constructed round by round from the running one. The corollaries are C31, C46, C47 and C91 for the running program."],
"C93": ["proved", "Exact numbers for refine_boundaries, segments_from_points, node_degree and characteristic_size; any arithmetic for add_internal_points, tell_relpos and the room; binary64 on whole coordinates for intersectsConstraint. ordered_copy is a finding."],
"C94": ["proved", "Binary64 throughout (any libm: none of its functions is used). The condition on the rays is stated with the unrounded ray end; rays through or very near a corner are excluded, as in C35."],
"C95": ["proved", "Exact reals, any hashes, any set order. C46_single_loop_refuted shows what happens when walking finds the only loop of a graph that has no other segments (IndexError). The triangulation is assumed not to fail on the loop found."],
"C96": ["proved", "Exact reals for any set order; C96_whole carries find_loops to binary64 on whole coordinates. That the vessel is found at all rests on an accident: line_reversed gives a plain LineSegment, which never equals a Wall, so turned walls stay in the graph (C96_walls); with plain segments the second walk is over an empty graph (C96_plain_refuted), and the same for walls that all run one way round (C46_single_loop_refuted). C96_room assumes that the triangulation of the loop does not fail."],
"C97": ["proved", "C97_ends and C97_no_loop for exact reals, C97_whole for binary64 on whole coordinates. Finding (C97_endless_refuted, C97_find_loops_refuted): segments are reversed inside a set, are not found by discard afterwards and so stay in _not_visited; once all segments of a loop are in that state and _has_branch is set, the while loop goes round the loop for ever. The order used is the one of CPython 3.11's hash tables for these coordinates, as far as it could be determined from the hashes of the coordinate tuples; the theorem only claims that it is an order of the sets."],
"C98": ["proved", "C98_one_room, C98_loop and C98_intex for exact reals: the walls and probe points are those made by the constructors of the parts (mantel_segments, flachboden_segments, head_graph, intex_points, Graph.renew), not assumed to form a loop or to lie on a side. C98_intex assumes that the random-ray test answers by the even-odd rule off the walls; C35_even_odd says for which rays it does. C98_whole is the loop in binary64, for whole sizes (flat ends, and heads whose diameter is a multiple of 1000). Not covered: nozzles, skirts and parts whose sizes have more than 8 decimals."],
"C99": ["proved", "C99_loops, C99_all_found and C99_in_general for exact reals, with the walls made by the constructors of the parts. What walking itself returns is not limited to the three loops by these theorems (C46_false_loop_refuted shows why it cannot be in general). C99_whole is C99_all_found in binary64 for whole sizes. Findings in binary64: C99_room_lost_refuted, C99_overlap_refuted. C99_each_once: each of the three is reported exactly once then."]
}
