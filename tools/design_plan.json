{
"C01": ["`Point_new`, `nround8` over RA", "floor/nearest arithmetic; ties to even by cases"],
"C02": ["`pt_eqb` over RA and every double", "unfolding to real inequalities; SpecFloat case analysis for symmetry/reflexivity; computed binary64 witness against transitivity"],
"C03": ["sets as `dedup` by exact coordinates", "list induction; binary64 witness"],
"C04": ["constructor on raw Python values, cached validity as object state", "case analysis; induction over operation histories"],
"C05": ["`pt_distance` over RA", "Cauchy-Schwarz / Minkowski"],
"C06": ["Point addition, subtraction, scaling over RA", "multiples of 1e-8 are fixed points of the rounding"],
"C07": ["`is_parallel`, `crossproduct` over RA", "nra / ring"],
"C08": ["`is_point_to_left/right`, `is_point_on_line`", "orientation predicate; binary64 witness"],
"C09": ["`ls_is_internal_point`, `is_point_on_line`", "interval reasoning; projection"],
"C10": ["`intersection_point`", "field on the 2x2 system"],
"C100": ["`vessel_rooms` of `MRooms.v` on the parts of C99 (`SpecPlate.v`, `SpecPlateRooms.v`)", "C99 and C91_once give three loops, each reported once; keep_base_polygons (invariants of C74) drops the one whose area is the sum of the two others; none of the two that are left contains the other one, because a corner of each is off the convex hull of the other; then C77 gives the rooms"],
"C101": ["`raum_intex` of `MRaum.v` and `graph_of` of `SpecSides.v` on the stories of `SpecStories.v`", "each story is a standing vessel, so that C98's lemmas place the probe points of each part with respect to its walls; two nested inductions over the rooms and their walls, with the table as it is after the parts done so far as invariant"],
"C102": ["`raum_intex` of `MRaum.v`, `head_intex` of `MIntex.v` and the walls of `SpecPartition.v`", "the probe points of the head lie in the first shell of the room into which it bulges, where a flat end would leave an odd number of walls to their right (C98's lemmas); the two walls of the head add one for the points under it and an even number for those beyond it; then induction over the rooms and walls with the entry of the head as invariant"],
"C103": ["`raum_intex` of `MRaum.v`, `mantel_intex`, `head_intex`, `flachboden_intex` and `renew` of `MIntex.v`, the parts of `SpecHeadParts.v`", "the room on the hollow side is a standing vessel (C98's lemmas); for the other one the probe points are located: those of the shell around the head are within 1/50000 of the radius of a wall and at 1/100 or 99/100 of its height, hence beyond the head, all others are higher than it; for such points the walls of the head count like those of a flat plate; then induction over the rooms and walls with the entry of the part as invariant"],
"C11": ["`line_point_distance`", "projection argument (infimum attained)"],
"C12": ["`touch`, `continuous`", "case analysis on four end point pairs"],
"C13": ["`common_part` on integer points up to 2000", "rational separation bound (denominators <= 8*2000^2) beats every tolerance"],
"C14": ["`intersection_on_segment`", "same separation bound"],
"C15": ["`seg_loose_equal`", "case analysis"],
"C16": ["`seg_reverse`, `line_reversed`", "computation"],
"C17": ["`seg_move`, `seg_mirror` on the heap", "aliasing cases hi = hj / hi <> hj"],
"C18": ["`norm`, `unitvector`", "sqrt algebra"],
"C19": ["`direction`, `opposite_direction` with exact atan2", "uniqueness of the angle in [0,360)"],
"C20": ["`angle_between_lines`, `angle_from_start_point`", "acos/cos inversion; binary64 witness of the domain error"],
"C21": ["`divide_line`", "induction on n; rounding error bound"],
"C22": ["`point_on_line_at_ratio`", "interval reasoning"],
"C23": ["`add_point_on_line`", "convex combination"],
"C24": ["`bounding_box` over any ordered arithmetic", "fold invariant; order laws proved for RA and binary64"],
"C25": ["`isclosed`, `close`, `closed_copy`", "list reasoning"],
"C26": ["`discontinuity`", "list induction"],
"C27": ["`purge` on the heap", "invariant of the double loop over objects; clusters under the tolerant =="],
"C28": ["`move`, `happend_end` on the heap", "frame + induction over histories of moves and mirrorings"],
"C29": ["`rotate_about_origin`, `rotate_about_xy`", "isometry of the exact rotation + rounding bound"],
"C30": ["`mirror_vertical`", "involution on stored coordinates"],
"C31": ["`order`", "loop invariant along the cycle: the ordered prefix is a walk of the cycle"],
"C32": ["`order`", "invariant for every arithmetic; iteration counter for n >= 250"],
"C33": ["append operations", "list reasoning"],
"C34": ["`isconvex`, `iscw`, `isccw`", "turn lemma; winding number one; witnesses"],
"C35": ["polygon `is_internal_point` with an arbitrary stream of draws", "crossing parity against the half-open even-odd rule; convex case"],
"C36": ["boundary variant", "any arithmetic"],
"C37": ["`convex_hull`", "monotone chain invariant; upper chain by reflection"],
"C38": ["`triangle_area`", "Heron identity"],
"C39": ["triangle angles and quality", "law of cosines, angle sum"],
"C40": ["`polygon_from_nodes`", "list induction"],
"C41": ["`square` on the heap", "symbolic execution incl. purge"],
"C42": ["`arc` on the heap", "chord length bound, rounding bound"],
"C43": ["`remove_outlier_segments`, `simplify`", "counting of end points; `==` on separated end points is equality"],
"C44": ["`poly_add`", "case analysis"],
"C45": ["`MDelaunay.v` triangulation state", "representation invariant; circumcircle geometry"],
"C46": ["`MGroup.v` walk and loops with set-order oracle", "invariant over the walk; single-cycle completeness"],
"C47": ["`PolygonGroup.isvalid`", "counting of degrees"],
"C48": ["`disjunct_cycles`", "computation; witness"],
"C49": ["`overlaps_in_cycles` with hash oracle", "hash-set semantics, both directions"],
"C50": ["`raum_erstellen`", "induction over cycles"],
"C51": ["`raum_intex` with test oracle", "characterisation by quantifiers over draws"],
"C52": ["`raum_dict_checker`", "permutations; counting"],
"C53": ["`mantel`, `standzarge`, flat parts", "symbolic execution over RA"],
"C54": ["torispherical heads", "tangency geometry + rounding bounds"],
"C55": ["`split_ht`", "interval geometry per wall; list bookkeeping"],
"C56": ["`from_dict` of all part classes", "association lists; constructor as oracle"],
"C57": ["`additional_stuff.py`", "quadratic formula"],
"C58": ["`rotationsmatrix`", "trigonometric addition"],
"C59": ["binary64 `is_collinear` / `is_parallel`", "computed witness"],
"C60": ["third-point helper", "computation"],
"C61": ["`poly_isvalid`", "exact characterisation; convex polygons never cross themselves"],
"C62": ["`intersection_on_endpoint`", "exact characterisation"],
"C63": ["`find_segment_by_point`, `neighbour`", "list reasoning"],
"C64": ["`poly_loose_equal`, `loose_subset`", "list reasoning"],
"C65": ["`poly_midpoint`", "sum over distinct vertices"],
"C66": ["`next_segment`", "list reasoning"],
"C67": ["`collinear_points`, `neighbour`, `on_chord`", "induction over the loop with the sets as invariant; corners of a cycle (`PCorner.v`)"],
"C68": ["`remove_collinear_points`, `order`", "each step rotates the cycle and drops a flat corner; the shoelace sum changes by that corner"],
"C69": ["`ear_clipping`, `triangle_new`, `triangle_ok`", "loop invariant `clipped` over rounds, oracles for sets, random draws and internal points"],
"C70": ["`triangle_mesh`, `detailled_area`, `area`, cache", "induction over the library triangles; shoelace decomposition; induction over histories"],
"C71": ["`congruent`, `enclosed`, `overlap`, `tri_touch`, `tri_disjunct`", "from C13 (common parts on the grid); sides of a triangle share at most one point; sorted lists are unique"],
"C72": ["`poly_disjunct`", "loop over pairs"],
"C73": ["`reorder`, `segments_from_pointset`", "invariant of the nearest-first loop; minimum over the starts"],
"C74": ["`keep_base_polygons`, `base_cycles`: loops as objects over a heap of shared segments, hash sets with arbitrary hashes", "invariants of the marking, sweeping and collecting loops; the sort's head is maximal; `order` of shared segments keeps every loop a cycle"],
"C75": ["`contained_cycles`: hull of the points of a cycle, answers about internal points as an oracle", "filter invariants; the hull theorem of C39: left of all hull edges iff in the interior of the hull, by the separating direction of an edge"],
"C76": ["`group_cycles`: polygons of a group over a heap of shared segments, `order` writes back", "induction on the cycles with the invariant that the heap is changed only in directions; frame property of `order`"],
"C77": ["`as_edgelist`: sort of pairs of objects without `<`", "induction on the list"],
"C78": ["`polygon_from_repr`, `fill_vect`", "filter with exactly one hit"],
"C79": ["`mantel_intex`, `head_intex`, `flachboden_intex`, `raumende_intex`: answers about internal points as an oracle per question", "rounding errors bounded by 5e-9 per coordinate; linear side conditions of the trapezoid and of the roof"],
"C80": ["`renew`, `add_intex_points` over a sequence of evaluations of `intex_points`", "induction on the segments; composition with C79"],
"C81": ["`kegelkrempe`, `right_side`, `cut_point`, `check_ends`, `krempe_part`", "closed form of the cut points; rounding grid of 8 decimals; `order` on a chain of six segments"],
"C82": ["`krempe_arc`, `extend`, `kegelkrempe` on the heap of Point objects", "centre of the touching circle up to the rounding of the moved walls; the spec of `arc`; mirror image on a purged heap; `order` on a chain of twelve segments"],
"C83": ["`split_ht`, `cut_part`, `cut_by_raumende` on the list of parts", "generalised cut of a part by a plate that may end beside a wall; induction over the parts with the present segments of the RaumEnde"],
"C84": ["`triangulate`, `change`, `disjunct` on polygons with their triangles", "induction over histories"],
"C85": ["`flipEdges` of `MDelaunay.v`", "a flip exchanges the diagonals of a convex quadrilateral (planarity, covered set, area); the volume under the lifted triangles decreases, and there are finitely many lists of triangles"],
"C86": ["`addPoint`, `triangulate` of `MDelaunay.v`", "invariant: planar triangulation of a convex polygon given by the boundary edges; visible edges form chains (counting starts and ends); the farthest point is outside the hull of the others"],
"C87": ["`ArithF.v` (binary64), `Point_new`, `pt_add`, `pt_sub`, `pt_eqb`, `pt_sameb`, `lex_ltb`, `purge`, `move`, `mirror_vertical`", "each operation of SpecFloat is the rounded real one (Flocq); half an ulp is below 1/20 of 1e-8, so the final rounding to 8 decimals recovers the exact decimal; simulation of the heap model over the reals by the one over doubles"],
"C88": ["`ArithF.v` (binary64), the products and predicates of `MLine.v`, `iscontinuous`, `isclosed`, `point_set`, `convex_hull`", "differences and products of integers below 2^25 in units of 1/256 fit into 53 bits, so they are exact (Flocq: the result is representable); every comparison is one of integers; the list functions are related element by element to those over the reals, and the theorems over the reals (C37) are transferred"],
"C89": ["the same functions on decimals", "half-ulp bounds of each operation add up to 3e-9; with three decimals the exact value is 0 or at least 1e-6, EPS lies between; distances of separated points are bounded below by a power of two through all roundings"],
"C90": ["`ArithF.v` (binary64), `intersection_point`, `intersection_on_segment`, `common_part` of `MLine.v`, `poly_isvalid`, `isconvex`, `iscw`, `isccw` of `MPoly.v`", "numerators and denominator are integers below 2^53, so only the quotient and the rounding to 8 decimals have errors; a quotient with a denominator up to 3.2e7 is a whole number or at least 3.1e-8 away from it, more than the errors and EPS together, so the comparisons with the bounding box are those of the exact point; the polygon functions are related element by element to those over the reals (C14, C34, C61)"],
"C91": ["`find_loops`, `try_comb`, `comb_rounds`, `walk_rounds` of `MGroup.v`, `order` of `MPoly.v`", "order() on segments of which two meet at every end keeps exactly the cycle of the first (`PComponent.v`: the walk along a permutation returns); then an invariant over the combinations: a loop not yet found lies in the remaining graph and its combination is still to come; segments taken out share no vertex with the rest, because no vertex of the loop branches"],
"C92": ["`order` of `MPoly.v`, `walk_segments`, `find_loops`, `group_isvalid` of `MGroup.v`, in `FA` and in `RA`", "simulation: on whole coordinates every test the functions make has the same outcome in both arithmetics - the square roots of two different whole numbers up to 3.2e7 are 1/12000 apart, so that the rounded ones compare in the same way; related states therefore stay related step by step; permutations chosen by a schedule are carried over along the relation, giving the exact schedule"],
"C93": ["the functions of `MRest.v`", "refine_boundaries: a fold over the sides with the chain of points of divide_line (C21) for each, and the integer part of a quotient of at least one; add_internal_points: induction on the number of draws; intersectsConstraint: C90 for each side; the others: from the definitions with C47 and C31"],
"C94": ["poly_is_internal_point, poly_is_external_point, is_on_boundary and bounding_box of `MPoly.v`, intersection_on_segment of `MLine.v`, with the binary64 instance", "the bounding box of whole coordinates is exact; the rounded ray end is within 1e-5 of the unrounded one; Flocq error bounds for numerators, denominator and quotient of the intersection point, which is therefore on the same side of every box bound as the exact one (sides parallel to an axis need a finer bound); the number of crossed sides is then the exact one, whose parity is that of C35"],
"C95": ["`vessel_rooms` of `MRooms.v`: find_loops, keep_base_polygons, base_cycles, segments_in_cycles, contained_cycles and raum_erstellen in sequence", "a combination in which every point occurs twice contains a loop and what is left of it contains another one, so only the combination of the single loop is used, and it is tried once; a segment between two corners of the loop would close a second loop, so the parts with all points on the loop are parts of it"],
"C96": ["`walk_segments`, `find_loops` of `MGroup.v` and `vessel_rooms` of `MRooms.v`, unchanged; `ring` and `one_way` of `SpecRing.v` say what a single cycle is", "walking: as long as no choice was ever open, the segments visited are the first edges of the cycle in order, so the polygon returned is the whole cycle; a segment object is reversed at most once per direction and the first segment is gone after the first round, so (directions not yet visited, segments ahead) decreases; find_loops: after the cycle is taken out, what stays is a path, on which walking finds nothing and no combination has every point twice"],
"C97": ["`walk_segments` and `find_loops` of `MGroup.v`; the number of rounds is the fuel, `Running` means that it was not enough", "ending: a segment object is reversed only when its direction is visited for the first time; between two such rounds the walk does not turn back, so its points are different unless they close a loop without the first segment; (directions not visited, points not on the path) decreases.  Not ending: the state after 8 rounds is computed and found again 3 rounds later, and the rounds depend on the state only"],
"C98": ["the graphs of `Mantel`, `FlachBoden` and the torispherical heads of `MVessel.v`, put together to a vessel in `SpecStack.v`; `raum_erstellen` and `raum_intex` of `MRaum.v`, `find_loops` of `MGroup.v`, the probe points of `MIntex.v`", "the walls form the cycle bottom end, right sides, top end, left sides (reversed), by induction over the shells; neighbouring walls meet in a corner only and the others are apart; C95 and C96 then give the room.  For raum_intex the walls to the right of a probe point are counted: at most one on each side of its shell, and those of a head beyond the last level.  For whole sizes every operation of the constructors is exact in binary64, so that C96_whole applies"],
"C99": ["the parts of C98 with one more flat end (`SpecPlate.v`); `find_loops` of `MGroup.v`", "the plate is a segment across the cycle of C98; in such a graph every point has two or three segments, so a loop that uses a wall of one side of the plate uses all of them (an even-degree argument on the cycles of the two rooms); C91 then gives the results of find_loops.  The findings are runs of the binary64 model with the set orders of CPython"]
}
