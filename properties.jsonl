{"id": "C01", "title": "Point stores coordinates rounded to 8 decimals, idempotently", "statement": "Every coordinate of a constructed Point is a multiple of 1e-8 that differs from the given number by at most 5e-9, rounding never swaps the order of two inputs, and building a Point from another Point's xy yields exactly the same coordinates.", "quantifier": "all real coordinate pairs", "why_tests_cant": "the claim ranges over every real input; tests sample a handful of literals", "anchors": ["geometry/SR_point.py: Point.__init__, Point._set_coords, PRECISION"]}
{"id": "C02", "title": "Point equality is the 1e-5 box tolerance: reflexive and symmetric (but not transitive)", "statement": "Two valid Points compare equal exactly when both coordinate differences are below 1e-5 in absolute value; the relation is reflexive and symmetric and != is its negation. It is NOT transitive: chains of equal Points can have unequal ends.", "quantifier": "all pairs (triples) of valid points", "why_tests_cant": "a relation law over all pairs/triples of points", "anchors": ["geometry/SR_point.py: Point.__eq__, Point.__ne__"]}
{"id": "C03", "title": "Point equality versus set/dict membership", "statement": "Points with identical coordinates are one element of a set. A user also expects equal Points to be one set element; this holds exactly for collections in which distinct Points are pairwise unequal, and fails in general: equal Points (closer than 1e-5) with different coordinates are kept as two elements because the hash is taken from the exact coordinates.", "quantifier": "all lists of points", "why_tests_cant": "needs all coordinate lists, including ones a test author would not think of", "anchors": ["geometry/SR_point.py: Point.__hash__, Point.__eq__", "geometry/SR_polygon.py: PolygonLine.point_set"]}
{"id": "C04", "title": "Point validity follows from the constructor argument", "statement": "A Point is valid exactly when its constructor argument has at least two entries and the first two stored entries are numbers; the empty Point is invalid, never equal to anything and yields a message string instead of a sum. Arguments with more than two numbers are accepted as valid (against the documented 'two coords are needed'), and the answer is frozen at the first query: revoking the coordinates later does not change it.", "quantifier": "all argument sequences and all histories of queries and coordinate changes", "why_tests_cant": "state-dependent: quantifies over every history of calls", "anchors": ["geometry/SR_point.py: Point.isvalid, Point._set_coords, Point._empty, Point.__add__"]}
{"id": "C05", "title": "distance is a metric", "statement": "distance(p, q) is non-negative, symmetric, zero exactly for identical coordinates and satisfies the triangle inequality.", "quantifier": "all triples of valid points", "why_tests_cant": "universally quantified inequality", "anchors": ["geometry/SR_point.py: distance, Point.distance"]}
{"id": "C06", "title": "Point addition and subtraction are componentwise and mutually inverse", "statement": "p + q and p - q have the componentwise sum and difference rounded to 8 decimals; on stored coordinates they are exact, commute and (p + q) - q gives back the coordinates of p.", "quantifier": "all pairs of points with stored (8-decimal) coordinates", "why_tests_cant": "algebraic law over all points", "anchors": ["geometry/SR_point.py: Point.__add__, Point.__sub__"]}
{"id": "C07", "title": "Algebra of segment products and parallelity", "statement": "crossproduct is antisymmetric, dotproduct symmetric; both change sign when one segment is reversed and are unchanged when a segment is translated; is_parallel is reflexive, symmetric and insensitive to direction, is_intersecting is its negation, and parallelity is transitive through a non-null segment.", "quantifier": "all segments", "why_tests_cant": "algebraic laws over all real endpoints", "anchors": ["geometry/SR_line.py: LineSegment.crossproduct, dotproduct, is_parallel, is_intersecting"]}
{"id": "C08", "title": "Sidedness of a point relative to a directed segment", "statement": "No point is both to the left and to the right; a point not reported on the line is reported on exactly one side; is_point_to_right is exactly 'signed area of (i, j, p) negative'; reversing the segment swaps strict sides and translating everything changes nothing. 'Right' does not exclude 'on the line': points within the on-line tolerance on the right side are reported both.", "quantifier": "all segments and points", "why_tests_cant": "trichotomy over all inputs", "anchors": ["geometry/SR_line.py: LineSegment.is_point_to_right, is_point_to_left, is_point_on_line"]}
{"id": "C09", "title": "is_point_on_line and is_internal_point characterise line and box membership", "statement": "is_point_on_line is exactly: p equal (tolerance) to an endpoint or |twice the signed area of (i,j,p)| < 1e-8; every point i + t(j-i) of the segment's line up to that tolerance is reported; is_internal_point is exactly membership in the bounding box widened by 1e-8 where only the left edge is exclusive, so every point of the segment is internal, and mirroring the situation can change the answer only on that edge.", "quantifier": "all segments and points", "why_tests_cant": "iff-characterisation over all inputs", "anchors": ["geometry/SR_line.py: LineSegment.is_point_on_line, is_internal_point, crossproduct_commonstart"]}
{"id": "C10", "title": "intersection_point is the intersection of the two lines", "statement": "intersection_point returns None exactly for parallel segments and never divides by zero; otherwise the point is the unique common point of both infinite lines, rounded to 8 decimals; the result does not depend on the order of the two segments nor on their directions.", "quantifier": "all pairs of segments", "why_tests_cant": "solution of a linear system for all coefficients", "anchors": ["geometry/SR_line.py: LineSegment.intersection_point"]}
{"id": "C11", "title": "line_point_distance is the distance to the infinite line", "statement": "For a segment with distinct endpoints line_point_distance(p) is attained by some point of the segment's line and is no larger than the distance from p to any point of that line; for coinciding endpoints it raises ZeroDivisionError.", "quantifier": "all segments and points", "why_tests_cant": "minimality over infinitely many points of the line", "anchors": ["geometry/SR_line.py: LineSegment.line_point_distance"]}
{"id": "C12", "title": "touch and continuous", "statement": "touch is symmetric and, for segments whose endpoints are either identical or more than 1e-8 apart, is exactly 'some endpoint of one coincides with an endpoint of the other'; continuous is symmetric, implies touch and requires an end-to-start coincidence. Contrary to its documentation touch also holds when both endpoints coincide (a segment touches itself).", "quantifier": "all pairs of segments", "why_tests_cant": "relation over all pairs", "anchors": ["geometry/SR_line.py: LineSegment.touch, continuous"]}
{"id": "C13", "title": "common_part is the set-theoretic intersection of two segments", "statement": "For segments with distinct endpoints on an integer grid (coordinates up to 2000 in absolute value) common_part returns None exactly when the closed segments are disjoint, a Point exactly when they share exactly one point (that point rounded to 8 decimals), and a LineSegment exactly when they share infinitely many points, and that segment is precisely the shared set.", "quantifier": "all pairs of proper segments on the grid", "why_tests_cant": "case analysis over all relative positions; tests cover a dozen literals", "anchors": ["geometry/SR_line.py: LineSegment.common_part, overlap, common_part_type"]}
{"id": "C14", "title": "intersection_on_segment detects proper crossings", "statement": "intersection_on_segment is symmetric; it never holds for touching or parallel segments; on the integer grid it holds exactly for non-parallel, non-touching segments that share a point.", "quantifier": "all pairs of segments", "why_tests_cant": "quantifies over all relative positions", "anchors": ["geometry/SR_line.py: LineSegment.intersection_on_segment, intersection_on_endpoint"]}
{"id": "C15", "title": "Loose equality of segments ignores direction", "statement": "loose_equal is reflexive, symmetric, transitive and unchanged when either segment is reversed, and holds exactly when the types agree and the endpoint sets have identical coordinates. It is not implied by ==, which is tolerant.", "quantifier": "all pairs/triples of segments", "why_tests_cant": "equivalence-relation law", "anchors": ["geometry/SR_line.py: LineSegment.loose_equal, __eq__"]}
{"id": "C16", "title": "Reversal of a segment", "statement": "reverse() twice restores the segment, line_reversed has swapped endpoints, reversal preserves length, bounding box and point-on-line answers. line_reversed of a Wall/NonWall is a plain LineSegment and therefore never equal to any Wall/NonWall.", "quantifier": "all segments of all three classes", "why_tests_cant": "law over all segments", "anchors": ["geometry/SR_line.py: LineSegment.reverse, line_reversed", "SR_Vessel/SR_hauptteile.py: Wall, NonWall"]}
{"id": "C17", "title": "Moving / mirroring a segment", "statement": "For a segment with two separate endpoint objects move(x0,y0) translates both endpoints by exactly (x0,y0) (8-decimal offsets), mirror_vertical reflects them on x0 and applying it twice restores the segment; lengths are preserved and no other Point object changes. If both endpoints are the same object the displacement is applied twice.", "quantifier": "all heaps, segments and offsets", "why_tests_cant": "aliasing: quantifies over all object graphs", "anchors": ["geometry/SR_line.py: LineSegment.move, mirror_vertical"]}
{"id": "C18", "title": "norm, unitvector", "statement": "norm is the Euclidean length, invariant under reversal and translation; unitvector has length 1 and points along the segment unless the endpoints are equal, in which case it is (0, 0).", "quantifier": "all segments", "why_tests_cant": "all reals", "anchors": ["geometry/SR_line.py: LineSegment.norm, unitvector, as_vector"]}
{"id": "C19", "title": "direction is the angle of the segment in [0, 360)", "statement": "0 <= direction < 360, and norm*(cos, sin) of that angle is the segment's vector for every segment; equal directions mean the vectors are positive multiples; the reversed segment's direction differs by exactly 180 modulo 360, so opposite_direction(s, reversed s) holds for non-null s.", "quantifier": "all segments", "why_tests_cant": "trigonometric law over all reals", "anchors": ["geometry/SR_line.py: LineSegment.direction, opposite_direction"]}
{"id": "C20", "title": "angle_between_lines", "statement": "The angle is symmetric, lies in [0, 180], satisfies the cosine law with the dot product, is 0 for equal directions and 180 for opposite ones; in exact arithmetic it never fails for non-null segments. In the real double arithmetic it raises ValueError for some parallel segments (e.g. direction (2,3) with itself).", "quantifier": "all pairs of non-null segments", "why_tests_cant": "all reals; rounding witness found by computation", "anchors": ["geometry/SR_line.py: LineSegment.angle_between_lines, angle_from_start_point"]}
{"id": "C21", "title": "divide_line partitions a segment", "statement": "divide_line(line, n) for n >= 1 returns exactly n segments; the first starts at line.i, the last ends at line.j, each next one starts at the Point where the previous ended, and the k-th division point is i + k/n (j-i) rounded to 8 decimals.", "quantifier": "all segments and all n", "why_tests_cant": "all n, by induction", "anchors": ["geometry/SR_line.py: divide_line"]}
{"id": "C22", "title": "point_on_line_at_ratio", "statement": "Ratios outside [0,1] are rejected; ratio 0 and 1 return the endpoints themselves; otherwise the point is (1-r) i + r j rounded to 8 decimals, which is internal to the segment.", "quantifier": "all segments and ratios", "why_tests_cant": "all reals", "anchors": ["geometry/SR_line.py: point_on_line_at_ratio"]}
{"id": "C23", "title": "add_point_on_line", "statement": "When it returns segments they start at line.i, meet at p and end at line.j; for p on the segment the lengths add up. It returns False exactly when p is outside the segment's widened box; p need not be on the line.", "quantifier": "all segments and points", "why_tests_cant": "all reals", "anchors": ["geometry/SR_line.py: add_point_on_line"]}
{"id": "C24", "title": "bounding_box is tight", "statement": "For segments with coordinates within +-1e11 the polygon bounding box contains every endpoint and each of its four sides passes through some endpoint. Beyond 1e11 it still contains every endpoint but is no longer tight.", "quantifier": "all non-empty polygons, any arithmetic with a total order (including doubles)", "why_tests_cant": "all lists", "anchors": ["geometry/SR_polygon.py: PolygonLine.bounding_box", "geometry/SR_line.py: LineSegment.bounding_box"]}
{"id": "C25", "title": "Open, closed, close, closed_copy", "statement": "isopen is the negation of isclosed; close() on a continuous open line appends exactly one segment from last to first point and the result is closed; closing again changes nothing; closed_copy leaves the original untouched and keeps all segments in front.", "quantifier": "all polygon lines, any arithmetic", "why_tests_cant": "all lists", "anchors": ["geometry/SR_polygon.py: PolygonLine.close, closed_copy, isclosed, isopen, iscontinuous"]}
{"id": "C26", "title": "discontinuity lists exactly the breaks", "statement": "discontinuity is empty exactly when iscontinuous, and lists exactly those segments that do not continue their predecessor, in order.", "quantifier": "all polygon lines, any arithmetic", "why_tests_cant": "all lists", "anchors": ["geometry/SR_polygon.py: PolygonLine.discontinuity, iscontinuous"]}
{"id": "C27", "title": "purge makes coincident points shared without moving anything", "statement": "For a polygon whose end points are identical or well separated and whose segments are not null: after purge two endpoints with identical coordinates are the same Point object (one of those in use before), no Point object's coordinates change, the visible polygon is unchanged and purging again does nothing. More generally, if the end points fall into clusters of mutually equal (within the tolerance) points, no segment has both ends in one cluster and at least two end points have identical coordinates, every end point is replaced by one of its own cluster, so that equal end points are the same object afterwards; if no two end points have identical coordinates, nothing happens at all, even if some are equal within the tolerance. Without clustering this fails: chains of nearly coincident points can make purge replace the far end of a segment.", "quantifier": "all heaps and polygons (clustered points)", "why_tests_cant": "aliasing over all object graphs", "anchors": ["geometry/SR_polygon.py: PolygonLine.purge"]}
{"id": "C28", "title": "move translates a polygon rigidly", "statement": "For a polygon whose endpoints are identical-or-separated, move(x0,y0) translates every endpoint of every segment by exactly (x0,y0), once, whatever the sharing of Point objects before the first transformation; afterwards continuity, closedness, lengths and cross products are as before, and moving back restores it. A Point appended after purging that coincides with an existing one breaks this: only one of the two objects moves.", "quantifier": "all heaps, polygons, offsets and histories of append/move", "why_tests_cant": "aliasing and history dependence", "anchors": ["geometry/SR_polygon.py: PolygonLine.move, purge, append_point_at_end"]}
{"id": "C29", "title": "rotation preserves distances up to rounding", "statement": "Rotating by phi maps every vertex to within 5e-9 per coordinate of the true rotated position, so every vertex keeps its distance to the centre within 1e-8 and pairwise distances within 1.5e-8; multiples of 90 degrees are exact for stored coordinates; rotate_about_xy keeps the centre fixed.", "quantifier": "all polygons, all angles", "why_tests_cant": "all reals", "anchors": ["geometry/SR_polygon.py: PolygonLine.rotate_about_origin, rotate_about_xy"]}
{"id": "C30", "title": "mirror_vertical is an involution that reverses orientation", "statement": "Mirroring twice at the same 8-decimal x0 restores all coordinates, mirrored lengths agree and every cross product changes sign.", "quantifier": "all polygons and axes", "why_tests_cant": "all reals", "anchors": ["geometry/SR_polygon.py: PolygonLine.mirror_vertical"]}
{"id": "C31", "title": "order() sorts the segments of one cycle into a closed polygon", "statement": "For the segments of one simple cycle with fewer than 250 segments, given in any order and with any directions, order() returns True, leaves a closed continuous polygon made of exactly the given segments (some reversed), whose first start point is the one nearest the origin.", "quantifier": "all simple cycles of any length below 250, all orders and orientations of their segments", "why_tests_cant": "all permutations and orientations", "anchors": ["geometry/SR_polygon.py: PolygonLine.order"]}
{"id": "C32", "title": "order() outside a single cycle", "statement": "order() never invents segments: its result consists of given segments up to reversal. On disjoint simple cycles it returns True and keeps exactly the cycle of the first segment, running the way that segment runs. Users must not rely on more: on two disjoint cycles it returns True and silently drops one; on a loop with a tail it can return True for a non-closed result; on failure it may leave segments reversed; the result depends on the initial direction (it is not 'always the same'); with 250 or more segments it raises instead of ordering.", "quantifier": "all segment lists; any number of segments >= 250", "why_tests_cant": "unbounded sizes", "anchors": ["geometry/SR_polygon.py: PolygonLine.order"]}
{"id": "C33", "title": "append_point_at_end / append_point_at_beginning", "statement": "Appending adds exactly one segment whose free end is p, keeps all other segments and the continuity of a continuous line, and makes p the last (first) point.", "quantifier": "all polygon lines and points, any arithmetic", "why_tests_cant": "all lists", "anchors": ["geometry/SR_polygon.py: PolygonLine.append_point_at_end, append_point_at_beginning"]}
{"id": "C34", "title": "isconvex and iscw", "statement": "isconvex holds exactly when no two consecutive turns have opposite sign; it is invariant under translation and reversal. For a convex closed polygon with non-zero turning iscw/isccw give the sign of the turning and swap when the polygon is reversed; for triangles this is the sign of the area. For non-convex polygons iscw only counts turns and can be wrong.", "quantifier": "all valid polygons", "why_tests_cant": "all polygons", "anchors": ["geometry/SR_polygon.py: PolygonLine.cps, isconvex, iscw, isccw"]}
{"id": "C35", "title": "is_internal_point of polygons", "statement": "is_internal_point never calls a point that is == a vertex internal, whatever the random draws, and its answer does not depend on the order of the segments. For every closed polygon (convex or not, edges in any order and direction), every point not == a vertex, and draws whose rays end to the right of the polygon and meet each edge either in a proper crossing or not at all, it finishes in the first round with the answer of the even-odd rule; for a convex counterclockwise polygon this is: strictly left of every edge. For a polygon on the negative side of the axes the rays end inside it, and inner points are reported as not internal for all draws.", "quantifier": "all closed polygons, all points, all outcomes of the random draws in general position", "why_tests_cant": "probabilistic code: all draws", "anchors": ["geometry/SR_polygon.py: PolygonLine.is_internal_point, is_external_point"]}
{"id": "C36", "title": "is_on_boundary", "statement": "Despite its name is_on_boundary does not tell whether the point lies on the polygon line: it returns False for every vertex, and for any other point it can return True only when its two internal random inside tests disagree; with the same draws it never returns True.", "quantifier": "all polygons and points", "why_tests_cant": "universal negative", "anchors": ["geometry/SR_polygon.py: PolygonLine.is_on_boundary"]}
{"id": "C37", "title": "convex_hull is the convex hull", "statement": "For any point list with at least two distinct points the hull vertices are input points without repetition, start at the lexicographically smallest point, every input point lies on or to the left of every directed hull edge, and if the points are not all collinear consecutive edges turn strictly left. The result is independent of order and repetition of the inputs. If the inputs are multiples of 1e-8 that are identical or separated, the returned polygon is closed and valid, and convex, counter-clockwise and of positive area unless the points are collinear; collinear points give a two-segment polygon reported as clockwise. With fewer than two distinct points no polygon is returned.", "quantifier": "all finite point lists", "why_tests_cant": "unbounded size, all reals", "anchors": ["geometry/SR_polygon.py: convex_hull"]}
{"id": "C38", "title": "Triangle.area is the area", "statement": "The Heron formula used by Triangle.area equals half the absolute cross product of two sides for every triangle, hence is positive exactly for non-collinear vertices, invariant under translation, mirroring and vertex order.", "quantifier": "all triangles", "why_tests_cant": "all reals", "anchors": ["geometry/SR_polygon.py: Triangle.area, Triangle.detailled_area"]}
{"id": "C39", "title": "Triangle angles", "statement": "The three internal angles of a non-degenerate triangle sum to 180 degrees and quality is non-negative, zero exactly for equilateral triangles.", "quantifier": "all non-degenerate triangles", "why_tests_cant": "all reals", "anchors": ["geometry/SR_polygon.py: Triangle.angles, quality"]}
{"id": "C40", "title": "polygon_from_nodes", "statement": "The result has one segment per consecutive node pair, consecutive segments share the Point object, and vertices are the nodes rounded to 8 decimals; with cw=True the first node is kept and the others are traversed backwards, so twice cw is the identity.", "quantifier": "all node lists", "why_tests_cant": "all lists", "anchors": ["geometry/SR_polygon.py: polygon_from_nodes"]}
{"id": "C41", "title": "square", "statement": "square(a,x0,y0) is a closed, convex polygon of five segments with bounding box [x0-a/2,x0+a/2]x[y0,y0+a], counter-clockwise unless cw, built from new Point objects only (x0, y0 and a/2 multiples of 1e-8, a/2 at least 1e-5, coordinates up to 1e11).", "quantifier": "all sizes and positions", "why_tests_cant": "all reals", "anchors": ["geometry/SR_polygon.py: square"]}
{"id": "C42", "title": "arc", "statement": "arc rejects out-of-range angles, radius and count; otherwise, if its nodes are not nearly coincident, it has n segments whose k-th vertex lies within 1.5e-8 of the circle point at alpha_start + k/n (alpha_end - alpha_start); with cw=True the vertices are visited as first, last, ..., second (so on an open arc the first segment is the chord to the far end). A full circle is closed without cw; with cw=True and a centre off the origin it is not closed.", "quantifier": "all centres, radii, angles and counts", "why_tests_cant": "all reals, all n", "anchors": ["geometry/SR_polygon.py: arc"]}
{"id": "C43", "title": "remove_outlier_segments", "statement": "The result is the sub-list of segments none of whose endpoints occurs only once; segments of a closed cycle are always kept; a segment is removed only if one of its endpoints occurs once. It is a single pass: dangling chains of length > 1 leave new outliers.", "quantifier": "all segment lists, any arithmetic", "why_tests_cant": "all lists", "anchors": ["geometry/SR_polygon.py: remove_outlier_segments, simplify"]}
{"id": "C44", "title": "add joins polygon lines", "statement": "When add succeeds its result has the segments of all operands in order and is valid. It does change its first operand: the segments of the others are appended to it.", "quantifier": "all polygon lists", "why_tests_cant": "side effect for all inputs", "anchors": ["geometry/SR_polygon.py: add"]}
{"id": "C45", "title": "Delaunay triangulation: edge flips and insertion", "statement": "The edge dict of the triangulation lists for each edge exactly the triangles having it; this holds after the first triangle, after adding a point (one triangle per visible boundary edge, nothing lost, boundary updated) and after a flip whose new diagonal is not yet an edge. A flip keeps the number of triangles, replaces the two triangles of an edge by those of the other diagonal, never fails unless more than two triangles share the edge, and happens iff the two opposite angles sum up to more than 180 degrees (times 1+1e-8). If the opposite vertices are on opposite sides of the edge, then the flipped quadrilateral was convex, orientation and total area are kept, the opposite vertex was inside the circumcircle and afterwards is outside, and the new edge is not flipped back. makeCounterClockwise keeps the vertex set and leaves a signed area >= -1e-8; makeKey is symmetric and sorted.", "quantifier": "all consistent triangulations, all edges, all points, all iteration orders", "why_tests_cant": "all states of the mutable triangulation and all real coordinates", "anchors": ["geometry/SR_polygon.py: Delaunay2d.flipOneEdge, flipEdges, addPoint, isEdgeVisible, makeCounterClockwise, makeKey, getArea, triangulate"]}
{"id": "C46", "title": "walk_segments and find_loops only return loops made of given segments", "statement": "When walk_segments returns a polygon, it is closed and made of given segments, each possibly with exchanged ends; on the edges of a simple cycle all running the same way round it finds exactly those segments. Every polygon returned by find_loops is made of given segments, its segments can be turned so that it is closed, and the list is sorted by number of segments. Findings: find_loops raises IndexError when walking uses up the whole graph (every vessel that is one simple loop); a segment shared by two loops is one object, so a returned polygon need not be closed; whether walk_segments finds a loop depends on the iteration order of a set.", "quantifier": "all segment lists and all set-iteration orders", "why_tests_cant": "all graphs and iteration orders", "anchors": ["geometry/SR_polygon.py: walk_segments", "geometry/SR_polygon_group.py: BehalterGraph.find_loops"]}
{"id": "C47", "title": "PolygonGroup.isvalid degree rules", "statement": "A group is valid exactly when every polygon is valid, 2, 3 or at least 10 segments meet in every point, at least three points have exactly two segments and the number of points with three segments is even. As long as fewer than ten segments meet everywhere, the parity test can never be the reason for rejection (handshake lemma). The sides of every simple closed polygon line satisfy the degree rules. Finding: a point where ten or more segments meet escapes the check.", "quantifier": "all groups whose end points are identical or separated and whose segments are not null", "why_tests_cant": "all graphs", "anchors": ["geometry/SR_polygon_group.py: PolygonGroup.isvalid, as_adjacency_list, node_degree"]}
{"id": "C48", "title": "disjunct_cycles", "statement": "disjunct_cycles is documented to list for each cycle the cycles without a common segment; it returns an empty list for every cycle of every vessel, whatever the cycles are. Finding: two triangles without a common part are not reported.", "quantifier": "all cycle dictionaries and all hash values", "why_tests_cant": "universal", "anchors": ["geometry/SR_polygon_group.py: BehalterGraph.disjunct_cycles, PolygonGroup.disjunct_cycles"]}
{"id": "C49", "title": "overlaps_in_cycles", "statement": "The keys are different pairs (a,b) of cycles with a < b, the values are never empty and never contain a part that the two cycles do not share, whatever values hash() returns. If hash() is consistent and == identifies only identical parts, a pair is present exactly when the two cycles share a part, and the value lists exactly the shared parts, each once. Finding: hash() of a polygon line is the hash of a temporary object, and if these differ from call to call shared parts are missed.", "quantifier": "all cycle dictionaries, all hash functions and all set iteration orders", "why_tests_cant": "all dictionaries and hash values", "anchors": ["geometry/SR_polygon_group.py: BehalterGraph.overlaps_in_cycles, all_overlapping_segments", "geometry/SR_polygon.py: PolygonLine.__hash__"]}
{"id": "C50", "title": "Rooms of a vessel", "statement": "raum_erstellen creates exactly one room per cycle, in the order of the cycles, named R1..Rn (all different); the outer wall of a room is exactly the part list of its cycle; existing rooms are never changed. A room whose cycle contains no other cycle has no inner wall; if no two cycles overlap, the inner wall lists the parts of each contained cycle. In general the inner wall of a room with contained cycles consists of the parts of the contained cycles that overlap no other cycle, and of the unshared parts of ALL overlapping cycles of the vessel, inside the room or not. With at most two overlapping pairs no exception is raised; with three mutually overlapping cycles an IndexError is.", "quantifier": "all cycle dictionaries, containment relations and hash behaviours", "why_tests_cant": "all sizes and all overlap patterns", "anchors": ["SR_Vessel/SR_hauptteile.py: Behalter.raum_erstellen, Raum"]}
{"id": "C51", "title": "raum_intex reports only existing rooms, for every part", "statement": "raum_intex has one entry per part name; a room R is reported as innenraum (aussenraum) of a part only if R is the name of a room with that part in its wall, and for some graph segment of the part all its internal (external) probing points were found inside the room; as indifferent only if some indifferent point was found not inside. Conversely R is reported if the answers of the random point-in-polygon test leave no choice. The test is vacuous for a segment without probing points.", "quantifier": "all vessels, walls, probing points and outcomes of the randomised inside test", "why_tests_cant": "all vessels and all random rays", "anchors": ["SR_Vessel/SR_hauptteile.py: Behalter.raum_intex"]}
{"id": "C52", "title": "raum_dict_checker", "statement": "With at most 26 rooms it returns True exactly when there is exactly one renaming of the rooms making the dictionary equal the reference (restricted to the dictionary's rooms), and raises otherwise, independent of set iteration order; names in the reference that do not occur in the dictionary are ignored, and symmetric vessels (two matching renamings) are rejected. With more than 26 rooms it raises KeyError.", "quantifier": "all dictionaries, all set iteration orders", "why_tests_cant": "all dictionaries and permutations", "anchors": ["SR_Vessel/SR_hauptteile.py: raum_dict_checker"]}
{"id": "C53", "title": "Mantel and flat parts: geometry and validity", "statement": "In exact arithmetic a Mantel whose axis pos_h has at most 8 decimals consists of the wall from (pos_h + d0/2, pos_v) to (pos_h + d1/2, pos_v + h), corners rounded to 8 decimals (exact for 8-decimal sizes), its exact mirror image about x = pos_h, and two non-walls that close the line; its graph is the two walls. Any shell outline is reported valid exactly if it has two wall segments, the first of which starts at the height where the second ends and ends where the second starts, the middles between the two walls at both heights have the same x, and the polygon line is valid. A Mantel is valid whenever both diameters and the height are at least 4e-5. A StandZarge has the same outline with a wall below and is therefore always reported invalid. A Flachboden or RaumEnde is the one wall from pos_h - d/2 to pos_h + d/2 at pos_v. In binary64 a Mantel with pos_h 0.1 and diameters 0.1 and 0.4 is reported invalid (finding).", "quantifier": "all sizes and positions", "why_tests_cant": "all reals", "anchors": ["SR_Vessel/SR_hauptteile.py: Mantel.make_segments, Mantel.isvalid, Hauptteil.wall_segments, StandZarge.make_segments, Flachboden, RaumEnde"]}
{"id": "C54", "title": "Torispherical heads", "statement": "For every diameter of at least 0.01, every cylindrical height of at least 2e-5, every position with at most 8 decimals, upright or hanging, Klopper- or Korbbogenboden: the constructor succeeds (no negative radicand, no division by zero, angles in range) and yields a closed outline of 16 walls and one opening, whose vertices are within 4e-8 those of the ideal outline: cylinder, knuckle in 3 steps, crown in 8 steps, knuckle, cylinder at the requested place; coinciding corners are one Point object. Crown and knuckle meet in one point under the same normal; the outline is as wide as the diameter and reaches exactly from the opening to the crown height. Without a cylindrical part (h1 = 0) this fails: the null wall is torn apart when the part is moved into place.", "quantifier": "all diameters, heights, positions, orientations and head types", "why_tests_cant": "all reals, and the closedness depends on rounding of every vertex", "anchors": ["SR_Vessel/SR_hauptteile.py: TorispherischesBoden.make_segments, Klopperboden, Korbbogenboden", "geometry/SR_polygon.py: PolygonLine.purge, move, rotate_about_origin", "geometry/SR_polygon.py: arc"]}
{"id": "C55", "title": "Hauptteil.split cuts walls in place", "statement": "Let a part have stored coordinates, pairwise different segments, walls that do not cross each other, do not all stand on one vertical line and do not end within 2e-5 of the height v. split(v) returns False and changes nothing for heads or when no wall spans v; otherwise it returns True, each wall spanning v is removed and its two pieces, of the same class and meeting in the stored point of the old wall at height v, are appended in order, and all other segments stay as they are and where they are. The same holds for a cut with a horizontal RaumEnde reaching beyond the walls; kept, the RaumEnde does not change; not kept, and meeting two walls, it becomes wall - opening - wall at the two cut points. If it meets exactly one wall, the call raises IndexError although the part has been cut already.", "quantifier": "all parts and heights", "why_tests_cant": "all reals and all lists of segments", "anchors": ["SR_Vessel/SR_hauptteile.py: Hauptteil.split", "geometry/SR_polygon.py: intersecting_lines"]}
{"id": "C56", "title": "from_dict key checking", "statement": "from_dict raises Exception for any missing required key; for keys that are not attributes it raises AssertionError; otherwise the object carries exactly the given values (a KegelKrempe its hts sorted). A Rohrboden can never be made (TypeError), and StandZarge.from_dict makes a Mantel.", "quantifier": "all dictionaries, all part classes", "why_tests_cant": "all dictionaries", "anchors": ["SR_Vessel/SR_hauptteile.py: Mantel.from_dict, Klopperboden.from_dict, Korbbogenboden.from_dict, Flachboden.from_dict, KegelKrempe.from_dict, RaumEnde.from_dict, Rohrboden"]}
{"id": "C57", "title": "sphere_line_intersection", "statement": "sphere_line_intersection: for l1 = l2 a NameError is raised. Otherwise: if no point of the line is on the sphere (None, None) is returned; if exactly one is (a tangent) NameError is raised; if two are, both are returned, the one further in the direction from l1 to l2 first.", "quantifier": "all lines and spheres", "why_tests_cant": "all reals", "anchors": ["geometry/additional_stuff.py: sphere_line_intersection"]}
{"id": "C58", "title": "rotationsmatrix", "statement": "The matrix is orthogonal with determinant 1, is the identity at 0 and composes additively in the angle.", "quantifier": "all angles", "why_tests_cant": "all reals", "anchors": ["geometry/SR_polygon.py: rotationsmatrix"]}
{"id": "C59", "title": "Double rounding breaks exact geometric predicates", "statement": "Exact-geometry expectations that fail in the binary64 arithmetic the program really uses: collinear decimal segments need not be parallel, and hence overlap/common_part miss overlaps.", "quantifier": "witnesses in IEEE binary64", "why_tests_cant": "the witness must be computed with bit-exact arithmetic", "anchors": ["geometry/SR_line.py: LineSegment.is_parallel, overlap, common_part"]}
{"id": "C60", "title": "LineSegment.midpoint", "statement": "midpoint is the point at one third of the way from i to j, hence halfway between the endpoints, and independent of the segment's direction, only for null segments.", "quantifier": "all segments", "why_tests_cant": "a claim about all segments; the existing code has no test for it", "anchors": ["geometry/SR_line.py:LineSegment.midpoint"]}
{"id": "C61", "title": "PolygonLine.isvalid", "statement": "A polygon line is valid exactly when it has at least one segment, consecutive segments are continuous, and no two segments cross (intersection_on_segment); overlapping collinear segments do not make it invalid, so a line running back over itself is valid. A closed line through separated vertices that are all on or left of every directed edge is valid.", "quantifier": "all segment lists", "why_tests_cant": "quantifies over all pairs of segments of lists of any length", "anchors": ["geometry/SR_polygon.py:PolygonLine.isvalid", "geometry/SR_polygon.py:PolygonLine.crossing_lines"]}
{"id": "C62", "title": "LineSegment.intersection_on_endpoint", "statement": "intersection_on_endpoint is False for parallel segments; for other segments it is True exactly if the segments touch (share an end point) or the common point of the two lines, rounded to 8 decimals, equals one of the four end points within the tolerance of ==. The answer is symmetric, does not depend on the direction of a segment and is never an exception. It does not ask the segments to meet: it can be True for segments without a common point.", "quantifier": "all pairs of segments over the reals", "why_tests_cant": "ranges over all segment pairs, parallel, touching, crossing and disjoint", "anchors": ["geometry/SR_line.py:LineSegment.intersection_on_endpoint"]}
{"id": "C63", "title": "Polygon neighbour and find_segment_by_point", "statement": "find_segment_by_point returns, in the order of the polygon, exactly the segments starting in p, ending in p, or having p as either end, up to the tolerance of ==. neighbour(p) lists exactly the other ends of the segments at p, one entry per segment, on polygons whose points are identical or separated and whose segments are not null.", "quantifier": "all segment lists of any length and all points; find_segment_by_point in every arithmetic", "why_tests_cant": "ranges over lists of any length and any incidence pattern", "anchors": ["geometry/SR_polygon.py:PolygonLine.neighbour", "geometry/SR_polygon.py:PolygonLine.find_segment_by_point"]}
{"id": "C64", "title": "Polygon loose_equal and loose_subset", "statement": "Polygons of different length are never loosely equal. Polygons of equal length made of plain segments are loosely equal exactly if every segment of the first is a segment of the second in either direction; the relation is not symmetric. Asking for direction_matters raises TypeError whenever the lengths agree. loose_subset holds exactly if every end point of the argument is, with identical coordinates, an end point of the polygon.", "quantifier": "all pairs of segment lists", "why_tests_cant": "ranges over all pairs of lists of any length, with repetitions", "anchors": ["geometry/SR_polygon.py:PolygonLine.loose_equal", "geometry/SR_polygon.py:PolygonLine.loose_subset"]}
{"id": "C65", "title": "Polygon midpoint", "statement": "midpoint is the mean of the distinct vertices, rounded to 8 decimals, whatever the order, direction or repetition of the segments; for an empty polygon it raises ZeroDivisionError.", "quantifier": "all segment lists over the reals", "why_tests_cant": "ranges over all vertex sets and all listings of them", "anchors": ["geometry/SR_polygon.py:PolygonLine.midpoint"]}
{"id": "C66", "title": "Polygon next_segment", "statement": "next_segment raises AssertionError unless the polygon is closed; otherwise it returns the first segment in the list that starts where the given segment ends, and raises Exception if there is none.", "quantifier": "all segment lists and segments, in every arithmetic", "why_tests_cant": "ranges over lists of any length, including self-touching closed ones where several segments start at the point", "anchors": ["geometry/SR_polygon.py:PolygonLine.next_segment"]}
{"id": "C67", "title": "Collinear corners of a polygon", "statement": "For a closed polygon, collinear_points reports as midpoints exactly the corners p at which some segment starts and whose triangle with the two neighbouring corners has a doubled area below 1e-8 (all such corners if the segments run one way round); as sides exactly the neighbours of midpoints that are not midpoints themselves; and it counts exactly the sides.", "quantifier": "all closed cycles of at least three separated corners, with the segments in any order and direction, over the reals", "why_tests_cant": "ranges over all polygons and all listings of their segments; the sets are built while iterating, so the result could depend on the order", "anchors": ["geometry/SR_polygon.py:PolygonLine.collinear_points", "geometry/SR_line.py:Line.is_point_on_line"]}
{"id": "C68", "title": "Removing collinear corners", "statement": "remove_collinear_points on a polygon whose segments run one way round cuts off corners one after the other, each flat (doubled area below 1e-8) at the moment it is cut; what remains is a closed polygon with at least three corners, and its doubled area differs by at most 1e-8 per removed corner; with integer corners the area is unchanged and no three consecutive corners of the result are on a line. A polygon without flat corners is returned unchanged. With more than 250 corners a flat corner makes it raise, and with segments of mixed directions it can fail an assertion.", "quantifier": "all closed cycles of 3 to 249 separated corners of sufficient area over the reals (any number for the unchanged and the failing case)", "why_tests_cant": "the flat corners interact: cutting one changes the neighbours of the next; ranges over all polygons", "anchors": ["geometry/SR_polygon.py:remove_collinear_points"]}
{"id": "C69", "title": "Ear clipping", "statement": "Whatever order sets are listed in, whatever is drawn at random and whatever the test for internal points answers, triangulate by ear clipping of a closed polygon returns. The triangles reported are corners cut off one after the other; each is not flat, the mean of its corners was reported inside, no other corner was reported inside it and no segments crossed. It reports success exactly when two corners are left, that is with n - 2 triangles; then the areas of the triangles add up to at least the area of the polygon, and to exactly the area if the polygon is convex.", "quantifier": "all closed cycles of at least three separated corners over the reals, all set orders, random draws and answers about internal points", "why_tests_cant": "the algorithm is randomised and runs up to 5000 rounds; ranges over all random outcomes", "anchors": ["geometry/SR_polygon.py:PolygonLine.triangulate_ear_clipping", "geometry/SR_polygon.py:Triangle"]}
{"id": "C70", "title": "Area of a polygon", "statement": "The area of a closed polygon asks the triangulation library with the distinct corners and the segments as pairs of corner numbers. Without triangles in the answer it is 0; otherwise it is the sum, rounded to 8 decimals, of the areas of those triangles that have the mean of their corners inside the polygon and no other corner of the polygon inside. If the library triangulates the polygon and the tests for internal points are right about it, it is the shoelace area rounded to 8 decimals. A first triangle with collinear corners makes it raise. Once returned, the area never changes again, whatever is done with the polygon.", "quantifier": "all closed cycles of separated corners over the reals, all answers of the library on the given corners and all answers about internal points; for the cached value: all histories of area queries, extensions and closings, in every arithmetic", "why_tests_cant": "ranges over all polygons, all library answers, all random outcomes and all histories", "anchors": ["geometry/SR_polygon.py:PolygonLine.area", "geometry/SR_polygon.py:PolygonLine.detailled_area", "geometry/SR_polygon.py:PolygonLine.triangle_mesh"]}
{"id": "C71", "title": "Relations between triangles", "statement": "For two triangles with integer corners up to 2000 in absolute value: congruent holds exactly if they have the same corners; enclosed reports whether every corner of the other was reported inside; overlap reports whether a corner of one was reported inside the other or two sides meet in one point away from all corners; touch holds exactly if there is exactly one pair of sides with more than one common point; triangles reported disjunct are not congruent, do not overlap and do not touch, and these conditions suffice if no corner is reported inside. Consequently a triangle placed in the corner of a larger one is reported disjunct from it.", "quantifier": "all pairs of non-degenerate triangles on the integer grid, segments in any order and direction, over the reals, all answers about internal points", "why_tests_cant": "ranges over all relative positions of two triangles, including touching and nested ones, and all random outcomes of the test for internal points", "anchors": ["geometry/SR_polygon.py:Triangle.congruent", "geometry/SR_polygon.py:Triangle.enclosed", "geometry/SR_polygon.py:Triangle.overlap", "geometry/SR_polygon.py:Triangle.touch", "geometry/SR_polygon.py:Triangle.disjunct"]}
{"id": "C72", "title": "Disjunct polygons", "statement": "Two polygons are reported disjunct exactly when no two of their triangles (of both polygons together) were reported to overlap and no two have the same corner list.", "quantifier": "all lists of triangles and all answers about internal points, in every arithmetic", "why_tests_cant": "ranges over triangulations of any size", "anchors": ["geometry/SR_polygon.py:PolygonLine.disjunct"]}
{"id": "C73", "title": "Path through a set of points", "statement": "segments_from_pointset of distinct points returns a path through all of them that visits them in the order of the distance from its first point, and no such path from another first point is shorter; it need not be the shortest path through the points. Two equal points make it raise IndexError, no points NameError.", "quantifier": "all finite sets of separated points with paths shorter than 1e11, over the reals, and all set orders", "why_tests_cant": "ranges over point sets of any size and all orders of iteration", "anchors": ["geometry/SR_polygon.py:segments_from_pointset"]}
{"id": "C74", "title": "Choice of the rooms among the loops", "statement": "If the choice of the rooms among two or more loops returns: a loop that is dropped beforehand repeats the segments of another loop or has the summed area of several; the rooms are a combination of remaining loops whose triangles neither coincide nor overlap, as closed continuous polygons, and no other such combination has more loops, or as many and a larger area; every remaining loop outside the combination repeats one in it, except at most one, which is returned as well exactly when all corners of some other loop are inside it or all outside. Loops that do not repeat, add up or clash are all returned. A single loop is the only room; no loop at all is a TypeError.", "quantifier": "all lists of loops (sharing segments or not) with separated corners over the reals, all hashes (also changing from call to call), all triangulations and all answers about internal points; single and no loop in every arithmetic", "why_tests_cant": "ranges over all sets of loops, all orders of sets, and arbitrary answers of the triangulation library", "anchors": ["geometry/SR_polygon_group.py:keep_base_polygons", "geometry/SR_polygon_group.py:BehalterGraph.cycles"]}
{"id": "C75", "title": "Contained cycles", "statement": "The table of contained cycles has one row per cycle; cycle z is in the row of cycle e exactly when z is another cycle and every end point of a segment of z was reported inside the convex hull of the end points of e. With a test that is right for convex polygons this means: every end point of z is in the interior of the convex hull of e's end points - so a cycle in a notch of e counts as contained although it is outside of e.", "quantifier": "all finite tables of cycles with separated corners over the reals, all answers about internal points", "why_tests_cant": "ranges over all cycles, numbers of cycles and answers of the randomised test", "anchors": ["geometry/SR_polygon_group.py:contained_cycles", "geometry/SR_polygon_group.py:PolygonGroup.contained_cycles"]}
{"id": "C76", "title": "Polygons of the cycles of a group", "statement": "The polygon of each cycle is made of exactly the wall segments of its parts that have no loose end, in some order and direction; the last polygon, and every polygon that has no wall in common with a later cycle, is continuous and closed. Only directions of segments change. A polygon that shares a wall with a later cycle may be left discontinuous.", "quantifier": "all groups whose cycles are closed after the loose segments are removed, sharing segments or not, over the reals", "why_tests_cant": "ranges over all cycles and all ways of sharing segments between them", "anchors": ["geometry/SR_polygon_group.py:PolygonGroup.cycles", "geometry/SR_polygon.py:PolygonLine.order"]}
{"id": "C77", "title": "Edge list of a group", "statement": "as_edgelist returns the edges only if each segment has the same end points as the one before; in particular it raises TypeError for every group with a continuous polygon of two or more segments.", "quantifier": "all groups of polygons, in every arithmetic; the corollary over the reals", "why_tests_cant": "ranges over all groups", "anchors": ["geometry/SR_polygon_group.py:PolygonGroup.as_edgelist"]}
{"id": "C78", "title": "Names of polygons", "statement": "Looking a polygon up in a group returns the polygon equal to it if there is exactly one and raises otherwise; the list of names of given polygons leaves out, without notice, those equal to none or to several of the group; the polygons of a group no two of which are equal get all their names.", "quantifier": "all groups and lists of polygons, in every arithmetic; own names over the reals", "why_tests_cant": "ranges over all groups", "anchors": ["geometry/SR_polygon_group.py:PolygonGroup.polygon_from_repr", "geometry/SR_polygon_group.py:PolygonGroup.name_from_repr"]}
{"id": "C79", "title": "Probe points of vessel parts", "statement": "The points a part offers for telling the sides of its walls are on the right sides: each wall of a Mantel gets two points strictly inside and two strictly outside its outline, each wall of a head two points between it and the base line and one beyond it, all on the wall's side of the axis; a Flachboden gets one indifferent point above and one below its plate, a RaumEnde none. This needs: positive diameters (a Mantel with an apex gets coinciding points), a wall not too steep for the fixed offsets, an axis at an 8-decimal position (else a head's right wall gets points on the left).", "quantifier": "all positions, diameters and heights in the given range over the reals, all answers of the randomised inside test that are right off the boundary", "why_tests_cant": "ranges over all real dimensions and all random draws; includes rounding to 8 decimals", "anchors": ["SR_Vessel/SR_hauptteile.py:Mantel.intex_points", "SR_Vessel/SR_hauptteile.py:TorispherischesBoden.intex_points", "SR_Vessel/SR_hauptteile.py:Flachboden.intex_points", "SR_Vessel/SR_hauptteile.py:RaumEnde.intex_points"]}
{"id": "C80", "title": "Graph of a part collects its probe points", "statement": "Renewing the graph of a part replaces its segments by the given ones and its internal, external and indifferent points by exactly those the part gives for these segments, each together with its segment; it fails exactly if computing the part's points fails or they have no entry for a segment. The three lists come from separate evaluations; for a Mantel as in C79 they are right nevertheless.", "quantifier": "all graphs and all sequences of values of the part's points, in every arithmetic; Mantel over the reals", "why_tests_cant": "ranges over all graphs and all results of the repeated randomised evaluation", "anchors": ["geometry/SR_polygon_group.py:Graph.renew", "geometry/SR_polygon_group.py:Graph.add_intex_points", "SR_Vessel/SR_hauptteile.py:Mantel.intex_points"]}
{"id": "C81", "title": "Sharp transition between a cone and a shell", "statement": "A KegelKrempe without knuckle (r = 0) between a cone (opening upward) and a shell that meet in a common diameter shortens the cone to the point h_unten below the seam and the shell to the point h_oben above it, makes a transition that is the closed six-sided polygon cut point - seam - cut point and its mirror image, and joins a part below to the cone at the seam. It is accepted exactly if rounding the two cut points to 8 decimals moves them, times the height of the part, by less than 1e-8; parts less than 2 high are always accepted, tall ones may be refused with an AssertionError depending on the unit. Diameters that do not meet are not noticed; a cone given also as the part below is not shortened.", "quantifier": "all joints with 8-decimal dimensions over the reals, with or without a part below, in either order", "why_tests_cant": "ranges over all dimensions; the acceptance test depends on rounding", "anchors": ["SR_Vessel/SR_hauptteile.py:KegelKrempe.__init__", "SR_Vessel/SR_hauptteile.py:KegelKrempe.make_segments"]}
{"id": "C82", "title": "Transition with a knuckle between a cone and a shell", "statement": "A KegelKrempe with radius r > 0 between a cone and a cylindrical shell, reaching beyond the arc on both sides, puts an arc of three chords between them whose points lie (within 3e-8) on the circle that touches both walls from inside, from one point of contact to the other. The cone ends and the shell begins at the cut points h_unten below and h_oben above the seam, the transition runs cut point - arc - cut point and back as mirror image, and is a closed polygon after construction; a part below is joined to the upper end of the arc. It is accepted exactly if rounding the lower cut point moves it, times the height of the cone, by less than 1e-8 (always if the cone is less than 2 high).", "quantifier": "all joints and radii with 8-decimal dimensions in the given range over the reals, with or without a part below, in either order", "why_tests_cant": "ranges over all dimensions and radii; needs trigonometry and the error of rounding every point to 8 decimals", "anchors": ["SR_Vessel/SR_hauptteile.py:KegelKrempe.make_segments", "geometry/SR_polygon.py:arc"]}
{"id": "C83", "title": "Cutting a vessel with a RaumEnde", "statement": "Making a Behalter with one RaumEnde cuts its parts in their order. If the RaumEnde meets walls of one part only, and two of them, this part is cut there, the RaumEnde becomes wall - opening - wall, everything else stays, and the order of the parts does not matter. Heads are never cut. After a cut only the left wall of the RaumEnde cuts the following parts: a part inside the one already cut stays uncut although the RaumEnde runs through it, and a part around it makes the construction raise IndexError.", "quantifier": "all vessels with one RaumEnde and any number of parts in any order, over the reals with rounding to 8 decimals", "why_tests_cant": "ranges over all lists of parts, their order and dimensions", "anchors": ["SR_Vessel/SR_hauptteile.py:Behalter.cut_by_raumende", "SR_Vessel/SR_hauptteile.py:Hauptteil.split"]}
{"id": "C84", "title": "Triangles are kept", "statement": "Once a polygon has triangles, they stay the same whatever is done with it until a new triangulation is forced; forced, or without triangles, they are computed from the segments of that moment. 'delaunay' always raises AttributeError (and a forced call loses the triangles there were), so 'random' may. As disjunct only looks at the triangles kept, polygons without triangles always count as disjunct, and polygons reported disjunct stay so when one is moved onto the other.", "quantifier": "all polygons and all histories of triangulations and changes of the segments, in every arithmetic", "why_tests_cant": "ranges over all histories of calls", "anchors": ["geometry/SR_polygon.py:PolygonLine.triangulate", "geometry/SR_polygon.py:PolygonLine.triangulate_delaunay", "geometry/SR_polygon.py:PolygonLine.disjunct"]}
{"id": "C85", "title": "Edge flips end in a planar Delaunay triangulation", "statement": "Given a planar triangulation (no degenerate triangle, no two triangles with a common inner point) with a right edge dict, Delaunay2d.flipEdges ends, whatever the order in which the edges are visited. The outcome is planar and Delaunay: for every edge of two triangles the opposite angles sum up to at most 180 degrees (times 1+1e-8). Points, boundary edges, number of triangles, total area and the set of covered points are those of before.", "quantifier": "all planar triangulations of any number of points and triangles, all visiting orders, over the reals", "why_tests_cant": "termination and planarity for all triangulations and all iteration orders of Python sets", "anchors": ["geometry/SR_polygon.py:Delaunay2d.flipEdges", "geometry/SR_polygon.py:Delaunay2d.flipOneEdge"]}
{"id": "C86", "title": "Delaunay2d triangulates the convex hull", "statement": "For at least three points of which no three are nearly on one line (twice the area of each triangle of them is more than 1e-8), Delaunay2d.triangulate ends, whatever the visiting orders of its sets, with a planar Delaunay triangulation whose triangles cover exactly the convex hull of the points and whose boundary edges go round it, each with all the other vertices on its left; if the indices are popped in ascending order every point is a vertex. Adding a point to such a triangulation keeps all this; the point becomes a vertex iff it was not covered before. Without general position this fails: adding a point on the line of a boundary edge makes a triangle without area.", "quantifier": "all sets of points in general position with coordinates of 8 decimals, all visiting orders, over the reals", "why_tests_cant": "ranges over all point sets and all iteration orders of Python sets", "anchors": ["geometry/SR_polygon.py:Delaunay2d.triangulate", "geometry/SR_polygon.py:Delaunay2d.addPoint"]}
{"id": "C87", "title": "Binary64 keeps coordinates with 8 decimals exact", "statement": "The program as it runs, on binary64 numbers: the Point made of two doubles stores the doubles nearest to the two decimals (multiples of 1e-8) nearest to them. For coordinates up to a million in size, storing again changes nothing, sums and differences of Points are the doubles nearest to the exact sums and differences, adding and subtracting the same Point restores it, set membership and sorting of Points are those of the exact decimals, and so is == unless two points are exactly 1e-5 apart. Every history of moves and reflections by decimals takes each end point of a polygon to the double nearest to its true place, with the same sharing of Point objects as in exact arithmetic; a history that leads back restores every coordinate. Limits: at a distance of exactly 1e-5 the answer of == depends on the place, and for coordinates of 1e8 decimals are lost.", "quantifier": "all doubles, all Points and polygons with coordinates up to 1e6, all histories of moves and reflections", "why_tests_cant": "rounding errors of all combinations of doubles, accumulated over histories of any length", "anchors": ["geometry/SR_point.py:Point._set_coords", "geometry/SR_point.py:Point.__eq__", "geometry/SR_point.py:Point.__hash__", "geometry/SR_polygon.py:PolygonLine.move", "geometry/SR_polygon.py:PolygonLine.mirror_vertical", "geometry/SR_polygon.py:PolygonLine.purge"]}
{"id": "C88", "title": "Geometry on multiples of 1/256 is exact in binary64", "statement": "The program as it runs, on binary64 numbers, with all coordinates multiples of 1/256 up to 65536 (halves, quarters, integers, ...): cross and dot products of segments are computed without any error; distances and lengths are the doubles nearest to the exact ones; left of, right of, on the line of a segment, inside its bounding box, parallel, collinear, touching, continuous, equal and null segments are answered exactly, as if there were neither rounding nor tolerance; continuity, closedness and the points of a chain of segments are the exact ones; the convex hull of any list of such points is, without any error, the closed counter-clockwise path through the corners of the true hull. Limits: with decimals such as 0.1 parallel segments are not found parallel and their common part is reported to be a Point, and with coordinates of 2^27 segments that are not parallel are found parallel.", "quantifier": "all Points, segments, chains and point lists with coordinates that are multiples of 1/256 up to 65536, any libm", "why_tests_cant": "all combinations of coordinates and all lists of points; a single wrong sign in a cross product gives a wrong hull", "anchors": ["geometry/SR_line.py:LineSegment.crossproduct", "geometry/SR_line.py:LineSegment.dotproduct", "geometry/SR_line.py:LineSegment.is_point_on_line", "geometry/SR_line.py:LineSegment.is_point_to_right", "geometry/SR_line.py:LineSegment.is_point_to_left", "geometry/SR_line.py:LineSegment.is_internal_point", "geometry/SR_line.py:LineSegment.is_parallel", "geometry/SR_line.py:LineSegment.touch", "geometry/SR_line.py:LineSegment.continuous", "geometry/SR_polygon.py:PolygonLine.iscontinuous", "geometry/SR_polygon.py:PolygonLine.isclosed", "geometry/SR_polygon.py:convex_hull"]}
{"id": "C89", "title": "Rounding errors of the predicates on decimals", "statement": "The program as it runs, on binary64 numbers. Coordinates with 8 decimals up to 1000: the computed cross and dot products of segments are within 3e-9 of the exact ones, so a Point is reported right of a segment if the exact product is below -3e-9 and not reported if it is above 3e-9. Coordinates with three decimals up to 1000: on the line, left of it, inside the bounding box and collinear are answered exactly, right of it too unless the Point is on the line, where it may be wrong. Coordinates with 8 decimals up to a million, points identical or more than 1e-5 apart: a chain is found continuous exactly if consecutive segments share an end, closed, open and the closing segment are as with exact numbers, and the points and the segments at a point are the same, in the same order.", "quantifier": "all Points, segments and chains with decimal coordinates in the given ranges, any libm", "why_tests_cant": "rounding errors of all combinations of coordinates, chains of any length", "anchors": ["geometry/SR_line.py:LineSegment.crossproduct", "geometry/SR_line.py:LineSegment.is_point_on_line", "geometry/SR_line.py:LineSegment.is_point_to_right", "geometry/SR_line.py:LineSegment.is_point_to_left", "geometry/SR_line.py:LineSegment.is_internal_point", "geometry/SR_line.py:LineSegment.is_collinear", "geometry/SR_line.py:LineSegment.touch", "geometry/SR_polygon.py:PolygonLine.iscontinuous", "geometry/SR_polygon.py:PolygonLine.isclosed", "geometry/SR_polygon.py:PolygonLine.close", "geometry/SR_polygon.py:PolygonLine.point_set", "geometry/SR_polygon.py:PolygonLine.find_segment_by_point"]}
{"id": "C90", "title": "Crossings, validity, convexity and orientation on whole coordinates are exact in binary64", "statement": "The program as it runs, on binary64 numbers, with whole coordinates up to 2000: the intersection point of two segments that are not parallel misses the exact common point of the two lines by at most 0.51e-8 (plus |q| * 2^-51 for a point q far away); intersection_on_segment is true exactly if the segments are not parallel, have a common point and share no end point; common_part of segments that are not parallel is None exactly if they have no common point, else a Point within 0.6e-8 of it; a polygon line is valid exactly if it has a segment, of consecutive segments one ends where the other starts, and no two segments cross; isconvex says without error whether turns in both senses occur; a convex counter-clockwise polygon of up to 1e8 vertices is reported valid, convex and counter-clockwise.", "quantifier": "all segments, chains and vertex lists with whole coordinates up to 2000, any libm", "why_tests_cant": "all combinations of coordinates, chains of any length; a quotient rounded to the wrong side of a bounding box would report a missing or an additional crossing", "anchors": ["geometry/SR_line.py:LineSegment.intersection_point", "geometry/SR_line.py:LineSegment.intersection_on_segment", "geometry/SR_line.py:LineSegment.common_part", "geometry/SR_line.py:LineSegment.is_internal_point", "geometry/SR_polygon.py:PolygonLine.crossing_lines", "geometry/SR_polygon.py:PolygonLine.isvalid", "geometry/SR_polygon.py:PolygonLine.isconvex", "geometry/SR_polygon.py:PolygonLine.iscw", "geometry/SR_polygon.py:PolygonLine.isccw"]}
{"id": "C91", "title": "find_loops misses no loop (unless walking took its walls away)", "statement": "For a graph of fewer than 250 segments without zero-length or double segments: if walking along the segments finds no loop first, find_loops returns exactly the simple loops of the graph that do not cross themselves - each of them, and nothing else (up to order and direction of the segments). In general a loop that does not cross itself is either returned or shares a wall with a loop that was found by walking. Loops of a plan (whole coordinates, walls meeting at their ends only) never cross themselves; walking finds nothing first if the first segment starts at a dead end. Findings: of two rooms with a common wall one is lost when only one segment starts at the branching point; with a second separate loop the same room can be returned twice.", "quantifier": "all graphs of fewer than 250 segments and all set-iteration orders", "why_tests_cant": "all graphs, all combinations of their segments, all iteration orders", "anchors": ["geometry/SR_polygon_group.py:BehalterGraph.find_loops", "geometry/SR_polygon.py:walk_segments", "geometry/SR_polygon.py:PolygonLine.order"]}
{"id": "C92", "title": "order(), walk_segments, find_loops and group validity on whole coordinates run as with exact numbers", "statement": "The program as it runs, on binary64 numbers, with whole coordinates up to 2000: order() gives the same answer, the same segments in the same order and directions as with exact arithmetic (also its choice of the first segment by distance from the origin, a square root); for every order in which Python visits the sets there is one for which the exact walk_segments and find_loops do the same; a group is valid exactly if it is with exact numbers. Hence order() turns the edges of a cycle of 3 to 249 corners into the closed cycle starting at the corner nearest to the origin, walk_segments finds a directed cycle, find_loops misses no loop when walking finds none first, and in general only loops that share a wall with one found by walking. Finding: find_loops raises IndexError for every vessel whose segments are one directed cycle.", "quantifier": "all lists of segments with whole coordinates up to 2000, all set-iteration orders, any libm", "why_tests_cant": "all graphs, all iteration orders, all combinations of coordinates; one comparison decided differently by a rounding error would change the loop that is returned", "anchors": ["geometry/SR_polygon.py:PolygonLine.order", "geometry/SR_polygon.py:walk_segments", "geometry/SR_polygon_group.py:BehalterGraph.find_loops", "geometry/SR_polygon_group.py:PolygonGroup.isvalid"]}
{"id": "C93", "title": "The remaining queries: refined boundaries, added points, crossed sides, printed relations, degrees, walls of a room, sizes", "statement": "refine_boundaries keeps all points and adds only points on the sides (within 1e-8); along each side a chain of them leads from end to end in steps not longer than the shortest side (plus 2e-8); no sides: ValueError, a side of length zero: ZeroDivisionError. add_internal_points appends exactly as many drawn points as wanted, each inside, in the order drawn, leaving out only points outside; the loop ends if enough draws are inside and never if none is. intersectsConstraint of two point indices is true exactly if the edge crosses a side (running on binary64 with whole coordinates), IndexError for a bad index. If tell_relpos prints disjunct it prints none of touch, overlap, congruent. segments_from_points returns, in order, the polygons with a segment both of whose ends are among the points. node_degree of an end point is the number of segments meeting there, otherwise AssertionError. The polygon of a room consists of the Wall segments of the parts of its inner and outer cycles. characteristic_size is half the smallest diameter. Finding: ordered_copy returns True and leaves the polygon unchanged instead of returning an ordered copy.", "quantifier": "all sides, points, draws, triangles, polygons, segments, rooms and diameters; any answers of is_internal_point", "why_tests_cant": "random draws and arbitrary geometry: a test sees finitely many draws and shapes", "anchors": ["geometry/SR_polygon.py:Delaunay2d.refine_boundaries", "geometry/SR_polygon.py:Delaunay2d.add_internal_points", "geometry/SR_polygon.py:Delaunay2d.intersectsConstraint", "geometry/SR_polygon.py:Triangle.tell_relpos", "geometry/SR_polygon.py:PolygonLine.ordered_copy", "geometry/SR_polygon_group.py:PolygonGroup.segments_from_points", "geometry/SR_polygon_group.py:BehalterGraph.node_degree", "SR_Vessel/SR_hauptteile.py:Raum.as_polygon", "SR_Vessel/SR_hauptteile.py:characteristic_size"]}
{"id": "C94", "title": "is_internal_point in floating point on whole coordinates", "statement": "The program as it runs, on binary64 numbers and with rounded ray ends: for every closed polygon (convex or not, edges in any order and direction) with whole coordinates up to 2000, every point with whole coordinates that is on no edge, and draws of random.random() whose rays end to the right of the polygon, are at least 101 long in both directions, keep clear of the corners (ray length times distance at least 1001) and are not nearly parallel to a side, is_internal_point finishes in the first round with the answer of the even-odd rule, is_external_point with the opposite, and is_on_boundary with False.", "quantifier": "all closed polygons and points with whole coordinates up to 2000, all draws whose rays keep clear of the corners", "why_tests_cant": "every ray ends in a rounded random point, and every intersection point is rounded several times: all draws and all polygons", "anchors": ["geometry/SR_polygon.py:Polygon.is_internal_point", "geometry/SR_polygon.py:Polygon.is_external_point", "geometry/SR_polygon.py:Polygon.is_on_boundary", "geometry/SR_polygon.py:Polygon.bounding_box", "geometry/SR_line.py:Line.intersection_point", "geometry/SR_line.py:Line.intersection_on_segment"]}
{"id": "C95", "title": "A vessel with a single loop of walls gets one room", "statement": "When the walls of the parts of a vessel contain exactly one loop (which does not cross itself; parts outside it may branch off) and walking along the segments does not find it first, find_loops returns exactly this loop, once, as a valid closed polygon, and Behalter.raum_erstellen makes exactly one room, named R1, without inner walls, whose outer wall consists of exactly the parts that have a segment on the loop.", "quantifier": "all graphs of fewer than 250 segments without double segments that contain one loop, all partitions of their segments into parts, all orders in which Python visits sets", "why_tests_cant": "every combination of segments is tried and nothing but the loop may be kept, for graphs of any shape", "anchors": ["geometry/SR_polygon_group.py:PolygonGroup.find_loops", "geometry/SR_polygon_group.py:keep_base_polygons", "geometry/SR_polygon_group.py:PolygonGroup.segments_in_cycles", "geometry/SR_polygon_group.py:PolygonGroup.contained_cycles", "SR_Vessel/SR_hauptteile.py:Behalter.raum_erstellen"]}
{"id": "C96", "title": "A vessel whose walls are exactly one loop gets exactly one room", "statement": "When the walls of a vessel are the edges of a single cycle that does not cross itself (given in any order, running in any directions), walking along them always ends; find_loops, if it returns, returns exactly that cycle, once and closed, with the segments unchanged except for their directions, and Behalter.raum_erstellen makes exactly one room, R1, without inner walls, whose outer wall consists of all parts. find_loops does return when the segments are walls (not plain LineSegments) that do not all run the same way round; for plain LineSegments it raises an IndexError as soon as walking has found the cycle.", "quantifier": "all cycles of 3 to 249 segments (124 for termination), all orders and directions of the segments, all partitions into parts, all orders in which Python visits sets; also the running program on whole coordinates up to 2000", "why_tests_cant": "walk_segments reverses objects that are still in a set under their old hash, so what it finds depends on the order of the sets, round by round; a test sees one order", "anchors": ["geometry/SR_polygon.py:walk_segments", "geometry/SR_polygon.py:PolygonLine.order", "geometry/SR_polygon_group.py:PolygonGroup.find_loops", "geometry/SR_line.py:LineSegment.line_reversed", "SR_Vessel/SR_hauptteile.py:Behalter.raum_erstellen"]}
{"id": "C97", "title": "When walking along a graph of segments ends", "statement": "walk_segments, with which find_loops begins, ends and raises nothing for every graph in which each loop passes through all segments that begin where the first one begins (in particular for graphs without loops); it need not end for other graphs: for a triangle with a tail, with small integer coordinates, there is an order of Python's sets for which walk_segments and find_loops run for ever.", "quantifier": "all graphs of up to 124 segments without double segments (exact numbers; binary64 for whole coordinates), all orders in which Python visits sets, all numbers of rounds", "why_tests_cant": "non-termination cannot be observed by a test, and termination has to hold for every order of the sets", "anchors": ["geometry/SR_polygon.py:walk_segments", "geometry/SR_polygon_group.py:PolygonGroup.find_loops"]}
{"id": "C98", "title": "A standing vessel gets one room made of all its parts, and the room is reported inside of all of them", "statement": "For a vessel made of shells standing on top of each other, closed at the bottom and at the top by a flat end or a torispherical head, with sizes of 8 decimals, raum_erstellen finds exactly one room and this room has all parts as its walls, in whatever order the parts are given and whatever the order of Python's sets is; the room search along the walls ends with the one loop through all walls. raum_intex then reports the room as inside of all shells and heads, as outside of none, and as indifferent for the flat ends.", "quantifier": "all numbers of shells up to 60 (any number for raum_intex), all heights, diameters and kinds of ends (exact numbers, diameters and heights of at least 1e-5; for raum_intex diameters of at least 1e-4 and shells that are not too flat), all orders and names of the parts, all orders in which Python visits sets, all sufficient numbers of rounds, all answers of the tests for inner points that are right off the walls", "why_tests_cant": "a test builds one vessel and sees one hash order and one series of random rays; the room search has to find the one loop for every vessel and every order", "anchors": ["SR_Vessel/SR_hauptteile.py:Behalter.raum_erstellen", "SR_Vessel/SR_hauptteile.py:Behalter.raum_intex", "SR_Vessel/SR_hauptteile.py:Mantel", "SR_Vessel/SR_hauptteile.py:KloepperBoden", "SR_Vessel/SR_hauptteile.py:FlachBoden", "geometry/SR_polygon_group.py:PolygonGroup.find_loops", "geometry/SR_polygon_group.py:Graph.renew"]}
{"id": "C99", "title": "The loops of a vessel with a dividing plate are its two rooms and its outline, and what the search reports of them", "statement": "A standing vessel (shells on top of each other, flat ends or torispherical heads) with a flat plate between two of its levels has exactly three loops: the walls of the room below the plate, of the room above it, and of both together. If walking along the walls does not find a loop first, find_loops reports these three and nothing else, in whatever order the parts are given. In general, when it ends, it reports at least one loop, every result that was not found by walking is one of the three, and one of the three is missing only if a result found by walking uses one of its walls; this does happen (the room search can report one room only, or a room and the outline instead of the two rooms).", "quantifier": "all numbers of shells up to 60, all positions of the plate, all heights, diameters and kinds of ends with 8 decimals (exact numbers, diameters and heights of at least 1e-5), all orders of the walls, all orders in which Python visits sets, all numbers of rounds", "why_tests_cant": "a test sees one vessel and one hash order, with which the rooms may be found by chance", "anchors": ["geometry/SR_polygon_group.py:PolygonGroup.find_loops", "geometry/SR_polygon_group.py:PolygonGroup.walk_segments", "SR_Vessel/SR_hauptteile.py:Behalter.raum_erstellen", "SR_Vessel/SR_hauptteile.py:Mantel", "SR_Vessel/SR_hauptteile.py:FlachBoden"]}
{"id": "C100", "title": "A vessel divided by a plate gets exactly its two rooms when the search sees all of its loops", "statement": "A standing vessel (shells on top of each other, flat ends or torispherical heads) with a flat plate between two of its levels, its parts in any order: if walking along the walls does not find a loop first, raum_erstellen makes exactly two rooms, named R1 and R2, without inner walls. The outer walls of one are the plate and all parts below it, those of the other the plate and all parts above it. The outline of the vessel, which is a loop too, is dropped, because its area is the sum of those of the two rooms.", "quantifier": "all numbers of shells up to 60, all positions of the plate, all heights, diameters and kinds of ends with 8 decimals (exact numbers, diameters and heights of at least 1e-5), all orders of the parts, all hash values and orders of sets, all triangulations whose triangles do not clash and whose areas add up, all answers about inner points that are right for convex polygons", "why_tests_cant": "a test sees one vessel, one order of its parts and one hash order; whether both rooms survive the choice of the base polygons has to hold for all of them", "anchors": ["SR_Vessel/SR_hauptteile.py:Behalter.raum_erstellen", "geometry/SR_polygon_group.py:PolygonGroup.keep_base_polygons", "geometry/SR_polygon_group.py:PolygonGroup.find_loops", "geometry/SR_polygon.py:Polygon.triangle_mesh", "SR_Vessel/SR_hauptteile.py:FlachBoden"]}
{"id": "C101", "title": "In a vessel divided by plates every part is told the room of its own story only", "statement": "A standing vessel that flat plates at some of its levels divide into any number of stories, with one room per story: raum_intex reports the room of the story inside of each of its shells and heads, indifferent for its flat ends, and for a plate it reports the room below and the room above as indifferent. No part has a room outside, no part is given a room of another story, and parts that belong to no room get nothing.", "quantifier": "all numbers of stories and shells, all heights, diameters and kinds of ends (exact numbers with 8 decimals, diameters of at least 1e-4, shells that are not too flat), all names of parts and rooms, all orders of the rooms and of their walls, all directions of the segments, all answers of the tests for inner points that are right off the walls", "why_tests_cant": "a test sees one vessel with one order of rooms and one series of random rays; the reported sides must be right for all of them", "anchors": ["SR_Vessel/SR_hauptteile.py:Behalter.raum_intex", "SR_Vessel/SR_hauptteile.py:Mantel.intex_points", "SR_Vessel/SR_hauptteile.py:TorispherischesBoden.intex_points", "SR_Vessel/SR_hauptteile.py:Flachboden.intex_points", "geometry/SR_polygon_group.py:Graph.renew"]}
{"id": "C102", "title": "A head that divides a vessel has the room on its hollow side inside and the other one outside", "statement": "A standing vessel divided into two rooms by a torispherical head at one of its levels, bulging upwards or downwards: raum_intex reports the room on the hollow side of the head, and only it, as inside of the head (its pressure acts as internal pressure), and the room into which the head bulges, and only it, as outside of it. Nothing is reported as indifferent.", "quantifier": "all numbers of shells on both sides, all heights, diameters and kinds of ends (exact numbers with 8 decimals; the head is at least 1e-4 wide, the shell into which it bulges is longer than the head is high in the graph and does not narrow), both directions of the head, all orders of the rooms and of their walls, all further rooms and parts, all names, all answers of the tests for inner points that are right off the walls", "why_tests_cant": "a test sees one vessel and one series of random rays; internal and external pressure must not be exchanged for any of them", "anchors": ["SR_Vessel/SR_hauptteile.py:Behalter.raum_intex", "SR_Vessel/SR_hauptteile.py:TorispherischesBoden.intex_points", "geometry/SR_polygon_group.py:Graph.renew"]}
{"id": "C103", "title": "A head that divides a vessel does not disturb what is reported for the other parts", "statement": "A standing vessel divided into two rooms by a torispherical head at one of its levels, bulging upwards or downwards: for every other part raum_intex reports the room to whose wall it belongs, and only it: inside of a shell or head, indifferent for a flat end. No room is reported outside of it. In particular this holds for the shell around the dividing head, although the probe points of this shell are close to the edge of the head.", "quantifier": "all numbers of shells on both sides, all heights, diameters and kinds of ends (exact numbers with 8 decimals; diameters of at least 1e-4, shells not too flat or small as in C98; the shell into which the head bulges is at least 2 cm longer than the head is high in the graph and does not narrow), both directions of the head, all parts, all orders of the rooms and of their walls, all further rooms and parts, all names, all answers of the tests for inner points that are right off the walls", "why_tests_cant": "a test sees one vessel and one series of random rays; whether a probe point falls under the head depends on all the sizes", "anchors": ["SR_Vessel/SR_hauptteile.py:Behalter.raum_intex", "SR_Vessel/SR_hauptteile.py:Mantel.intex_points", "SR_Vessel/SR_hauptteile.py:TorispherischesBoden.intex_points", "SR_Vessel/SR_hauptteile.py:Flachboden.intex_points", "geometry/SR_polygon_group.py:Graph.renew"]}
