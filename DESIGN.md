# Formal model of jkbgbr/Srep3_old in Rocq (Coq 8.16.1)

## 1. How the code is modelled

* **Arithmetic is a parameter.** Every model function takes a record `Arith`
  (add, sub, mul, div, sqrt, comparison, `round(x, 8)`, trigonometry).  No axioms,
  no functors: it is an ordinary record, so each theorem says for which arithmetic it holds.
  * *any arithmetic* - `forall A : Arith`, possibly with the order laws a theorem needs as
    explicit hypotheses.  These cover the real binary64 program.
  * *exact reals* `RA` - real numbers of the standard library, `round(x,8)` = nearest multiple of
    1e-8, ties to even.  This is the idealised program: rounding of Points is modelled, rounding of
    the intermediate arithmetic is not.
  * *binary64* `FA L` - `Coq.Floats.SpecFloat` with precision 53 / emax 1024 (axiom free, computable,
    bit exact IEEE 754), `round(x,8)` as in CPython (correctly rounded decimal), libm functions as an
    arbitrary record `L` (an oracle).  Witnesses of refuted claims are computed here by `vm_compute`.
* **Exceptions are values.** `res A := Ok a | Err e`; Python `assert`, `ZeroDivisionError`,
  `ValueError` (math domain), `TypeError`, `NameError`, `KeyError`, `IndexError`, `AttributeError`,
  `raise Exception`.
* **Two layers.** Read-only code is modelled on values (points are coordinate pairs, segments carry
  their class).  Code that mutates or aliases Point objects (`move`, `mirror`, `rotate`, `purge`,
  `append`, the constructors of squares, arcs and vessel parts) is modelled on a heap
  `nat -> pt` with object identities (`MHeap.v`); `view` gives what a reader of the polygon sees.
* **Sets** of Points/LineSegments: membership is equality of hash and `==`; hashes are taken from exact
  coordinates, so the model compares coordinates exactly (assumption: CPython's tuple-of-float hash
  does not collide on tolerance-equal, coordinate-different points).  Iteration order of sets is an
  arbitrary permutation (an oracle `sched`).  `PolygonLine.__hash__` hashes a fresh generator object,
  i.e. an arbitrary number at every call: an oracle `hashing` (C49).
* **Randomness** (`random.uniform`) is an arbitrary stream of draws; theorems quantify over all of them.
* **Loops** with data dependent length (`while`) are modelled with a fuel argument; the theorems
  either hold for every fuel or prove that a stated fuel suffices.
* **Findings.** Where an expected property is false of the code, the theorem with the suffix
  `_refuted` exhibits (in binary64 or over the reals) a concrete input on which it fails, and the
  property itself is worded as the exact true characterisation.

## 2. Files

* `Base.v` results, lists; `Arith.v`, `ArithR.v`, `ArithF.v` arithmetic.
* Model, each definition citing file and lines:
  `MPoint.v` (SR_point.py), `MLine.v` (SR_line.py), `MPoly.v` (SR_polygon.py, value layer),
  `MHeap.v` (object layer), `MDelaunay.v` (class Delaunay2d), `MSphere.v` (additional_stuff.py),
  `MGroup.v`, `MCycles.v` (SR_polygon_group.py), `MVessel.v`, `MSplit.v`, `MRaum.v` (SR_hauptteile.py)
  and the further `M*.v` files.
* `Spec*.v` small independent specifications (plane geometry, heaps, even-odd rule, rooms, ideal heads).
* `P*.v` lemmas and proofs.
* `Prop*.v` only the property theorems (each closed by `exact`), their non-vacuity examples and
  `Print Assumptions`; generated from marked lemmas by `tools/gen_props.py` and committed.
* Non-vacuity: `Example`s next to the theorems, in the `Prop*.v` of the same name, or in
  `PropExamples.v` for the older files.  Theorems without hypotheses have none.

## 3. Plan per property

| id | property | modelled | proved by | theorems |
|---|---|---|---|---|
| C01 | Point stores coordinates rounded to 8 decimals, idempotently | `Point_new`, `nround8` over RA | floor/nearest arithmetic; ties to even by cases | 3 (proved) |
| C02 | Point equality is the 1e-5 box tolerance: reflexive and symmetric (but not transitive) | `pt_eqb` over RA and every double | unfolding to real inequalities; SpecFloat case analysis for symmetry/reflexivity; computed binary64 witness against transitivity | 4 (proved) |
| C03 | Point equality versus set/dict membership | sets as `dedup` by exact coordinates | list induction; binary64 witness | 3 (proved) |
| C04 | Point validity follows from the constructor argument | constructor on raw Python values, cached validity as object state | case analysis; induction over operation histories | 5 (proved) |
| C05 | distance is a metric | `pt_distance` over RA | Cauchy-Schwarz / Minkowski | 2 (proved) |
| C06 | Point addition and subtraction are componentwise and mutually inverse | Point addition, subtraction, scaling over RA | multiples of 1e-8 are fixed points of the rounding | 2 (proved) |
| C07 | Algebra of segment products and parallelity | `is_parallel`, `crossproduct` over RA | nra / ring | 3 (proved) |
| C08 | Sidedness of a point relative to a directed segment | `is_point_to_left/right`, `is_point_on_line` | orientation predicate; binary64 witness | 3 (proved) |
| C09 | is_point_on_line and is_internal_point characterise line and box membership | `ls_is_internal_point`, `is_point_on_line` | interval reasoning; projection | 5 (proved) |
| C10 | intersection_point is the intersection of the two lines | `intersection_point` | field on the 2x2 system | 3 (proved) |
| C11 | line_point_distance is the distance to the infinite line | `line_point_distance` | projection argument (infimum attained) | 1 (proved) |
| C12 | touch and continuous | `touch`, `continuous` | case analysis on four end point pairs | 3 (proved) |
| C13 | common_part is the set-theoretic intersection of two segments | `common_part` on integer points up to 2000 | rational separation bound (denominators <= 8*2000^2) beats every tolerance | 5 (proved) |
| C14 | intersection_on_segment detects proper crossings | `intersection_on_segment` | same separation bound | 2 (proved) |
| C15 | Loose equality of segments ignores direction | `seg_loose_equal` | case analysis | 3 (proved) |
| C16 | Reversal of a segment | `seg_reverse`, `line_reversed` | computation | 2 (proved) |
| C17 | Moving / mirroring a segment | `seg_move`, `seg_mirror` on the heap | aliasing cases hi = hj / hi <> hj | 2 (proved) |
| C18 | norm, unitvector | `norm`, `unitvector` | sqrt algebra | 1 (proved) |
| C19 | direction is the angle of the segment in [0, 360) | `direction`, `opposite_direction` with exact atan2 | uniqueness of the angle in [0,360) | 3 (proved) |
| C20 | angle_between_lines | `angle_between_lines`, `angle_from_start_point` | acos/cos inversion; binary64 witness of the domain error | 4 (proved) |
| C21 | divide_line partitions a segment | `divide_line` | induction on n; rounding error bound | 2 (proved) |
| C22 | point_on_line_at_ratio | `point_on_line_at_ratio` | interval reasoning | 1 (proved) |
| C23 | add_point_on_line | `add_point_on_line` | convex combination | 1 (proved) |
| C24 | bounding_box is tight | `bounding_box` over any ordered arithmetic | fold invariant; order laws proved for RA and binary64 | 5 (proved) |
| C25 | Open, closed, close, closed_copy | `isclosed`, `close`, `closed_copy` | list reasoning | 2 (proved) |
| C26 | discontinuity lists exactly the breaks | `discontinuity` | list induction | 1 (proved) |
| C27 | purge makes coincident points shared without moving anything | `purge` on the heap | invariant of the double loop over objects; clusters under the tolerant == | 4 (proved) |
| C28 | move translates a polygon rigidly | `move`, `happend_end` on the heap | frame + induction over histories of moves and mirrorings | 5 (proved) |
| C29 | rotation preserves distances up to rounding | `rotate_about_origin`, `rotate_about_xy` | isometry of the exact rotation + rounding bound | 3 (proved) |
| C30 | mirror_vertical is an involution that reverses orientation | `mirror_vertical` | involution on stored coordinates | 3 (proved) |
| C31 | order() sorts the segments of one cycle into a closed polygon | `order` | loop invariant along the cycle: the ordered prefix is a walk of the cycle | 1 (proved) |
| C32 | order() outside a single cycle | `order` | invariant for every arithmetic; iteration counter for n >= 250 | 4 (proved) |
| C33 | append_point_at_end / append_point_at_beginning | append operations | list reasoning | 1 (proved) |
| C34 | isconvex and iscw | `isconvex`, `iscw`, `isccw` | turn lemma; winding number one; witnesses | 7 (proved) |
| C35 | is_internal_point of polygons | polygon `is_internal_point` with an arbitrary stream of draws | crossing parity against the half-open even-odd rule; convex case | 5 (proved) |
| C36 | is_on_boundary | boundary variant | any arithmetic | 1 (proved) |
| C37 | convex_hull is the convex hull | `convex_hull` | monotone chain invariant; upper chain by reflection | 4 (proved) |
| C38 | Triangle.area is the area | `triangle_area` | Heron identity | 2 (proved) |
| C39 | Triangle angles | triangle angles and quality | law of cosines, angle sum | 2 (proved) |
| C40 | polygon_from_nodes | `polygon_from_nodes` | list induction | 2 (proved) |
| C41 | square | `square` on the heap | symbolic execution incl. purge | 1 (proved) |
| C42 | arc | `arc` on the heap | chord length bound, rounding bound | 3 (proved) |
| C43 | remove_outlier_segments | `remove_outlier_segments`, `simplify` | counting of end points; `==` on separated end points is equality | 5 (proved) |
| C44 | add joins polygon lines | `poly_add` | case analysis | 1 (proved) |
| C45 | Delaunay triangulation: edge flips and insertion | `MDelaunay.v` triangulation state | representation invariant; circumcircle geometry | 11 (proved) |
| C46 | walk_segments and find_loops only return loops made of given segments | `MGroup.v` walk and loops with set-order oracle | invariant over the walk; single-cycle completeness | 8 (proved) |
| C47 | PolygonGroup.isvalid degree rules | `PolygonGroup.isvalid` | counting of degrees | 7 (proved) |
| C48 | disjunct_cycles | `disjunct_cycles` | computation; witness | 2 (proved) |
| C49 | overlaps_in_cycles | `overlaps_in_cycles` with hash oracle | hash-set semantics, both directions | 4 (proved) |
| C50 | Rooms of a vessel | `raum_erstellen` | induction over cycles | 7 (proved) |
| C51 | raum_intex reports only existing rooms, for every part | `raum_intex` with test oracle | characterisation by quantifiers over draws | 4 (proved) |
| C52 | raum_dict_checker | `raum_dict_checker` | permutations; counting | 4 (proved) |
| C53 | Mantel and flat parts: geometry and validity | `mantel`, `standzarge`, flat parts | symbolic execution over RA | 6 (proved) |
| C54 | Torispherical heads | torispherical heads | tangency geometry + rounding bounds | 4 (proved) |
| C55 | Hauptteil.split cuts walls in place | `split_ht` | interval geometry per wall; list bookkeeping | 3 (proved) |
| C56 | from_dict key checking | `from_dict` of all part classes | association lists; constructor as oracle | 5 (proved) |
| C57 | sphere_line_intersection | `additional_stuff.py` | quadratic formula | 1 (proved) |
| C58 | rotationsmatrix | `rotationsmatrix` | trigonometric addition | 1 (proved) |
| C59 | Double rounding breaks exact geometric predicates | binary64 `is_collinear` / `is_parallel` | computed witness | 1 (proved) |
| C60 | LineSegment.midpoint | third-point helper | computation | 1 (proved) |
| C61 | PolygonLine.isvalid | `poly_isvalid` | exact characterisation; convex polygons never cross themselves | 3 (proved) |
| C62 | LineSegment.intersection_on_endpoint | `intersection_on_endpoint` | exact characterisation | 2 (proved) |
| C63 | Polygon neighbour and find_segment_by_point | `find_segment_by_point`, `neighbour` | list reasoning | 2 (proved) |
| C64 | Polygon loose_equal and loose_subset | `poly_loose_equal`, `loose_subset` | list reasoning | 3 (proved) |
| C65 | Polygon midpoint | `poly_midpoint` | sum over distinct vertices | 1 (proved) |
| C66 | Polygon next_segment | `next_segment` | list reasoning | 1 (proved) |
| C67 | Collinear corners of a polygon | `collinear_points`, `neighbour`, `on_chord` | induction over the loop with the sets as invariant; corners of a cycle (`PCorner.v`) | 1 (proved) |
| C68 | Removing collinear corners | `remove_collinear_points`, `order` | each step rotates the cycle and drops a flat corner; the shoelace sum changes by that corner | 5 (proved) |
| C69 | Ear clipping | `ear_clipping`, `triangle_new`, `triangle_ok` | loop invariant `clipped` over rounds, oracles for sets, random draws and internal points | 2 (proved) |
| C70 | Area of a polygon | `triangle_mesh`, `detailled_area`, `area`, cache | induction over the library triangles; shoelace decomposition; induction over histories | 6 (proved) |
| C71 | Relations between triangles | `congruent`, `enclosed`, `overlap`, `tri_touch`, `tri_disjunct` | from C13 (common parts on the grid); sides of a triangle share at most one point; sorted lists are unique | 7 (proved) |
| C72 | Disjunct polygons | `poly_disjunct` | loop over pairs | 1 (proved) |
| C73 | Path through a set of points | `reorder`, `segments_from_pointset` | invariant of the nearest-first loop; minimum over the starts | 4 (proved) |
| C74 | Choice of the rooms among the loops | `keep_base_polygons`, `base_cycles`: loops as objects over a heap of shared segments, hash sets with arbitrary hashes | invariants of the marking, sweeping and collecting loops; the sort's head is maximal; `order` of shared segments keeps every loop a cycle | 6 (proved) |
| C75 | Contained cycles | `contained_cycles`: hull of the points of a cycle, answers about internal points as an oracle | filter invariants; the hull theorem of C39: left of all hull edges iff in the interior of the hull, by the separating direction of an edge | 3 (proved) |
| C76 | Polygons of the cycles of a group | `group_cycles`: polygons of a group over a heap of shared segments, `order` writes back | induction on the cycles with the invariant that the heap is changed only in directions; frame property of `order` | 2 (proved) |
| C77 | Edge list of a group | `as_edgelist`: sort of pairs of objects without `<` | induction on the list | 2 (proved) |
| C78 | Names of polygons | `polygon_from_repr`, `fill_vect` | filter with exactly one hit | 3 (proved) |
| C79 | Probe points of vessel parts | `mantel_intex`, `head_intex`, `flachboden_intex`, `raumende_intex`: answers about internal points as an oracle per question | rounding errors bounded by 5e-9 per coordinate; linear side conditions of the trapezoid and of the roof | 7 (proved) |
| C80 | Graph of a part collects its probe points | `renew`, `add_intex_points` over a sequence of evaluations of `intex_points` | induction on the segments; composition with C79 | 2 (proved) |
| C81 | Sharp transition between a cone and a shell | `kegelkrempe`, `right_side`, `cut_point`, `check_ends`, `krempe_part` | closed form of the cut points; rounding grid of 8 decimals; `order` on a chain of six segments | 6 (proved) |
| C82 | Transition with a knuckle between a cone and a shell | `krempe_arc`, `extend`, `kegelkrempe` on the heap of Point objects | centre of the touching circle up to the rounding of the moved walls; the spec of `arc`; mirror image on a purged heap; `order` on a chain of twelve segments | 2 (proved) |
| C83 | Cutting a vessel with a RaumEnde | `split_ht`, `cut_part`, `cut_by_raumende` on the list of parts | generalised cut of a part by a plate that may end beside a wall; induction over the parts with the present segments of the RaumEnde | 5 (proved) |
| C84 | Triangles are kept | `triangulate`, `change`, `disjunct` on polygons with their triangles | induction over histories | 5 (proved) |
| C85 | Edge flips end in a planar Delaunay triangulation | `flipEdges` of `MDelaunay.v` | a flip exchanges the diagonals of a convex quadrilateral (planarity, covered set, area); the volume under the lifted triangles decreases, and there are finitely many lists of triangles | 1 (proved) |
| C86 | Delaunay2d triangulates the convex hull | `addPoint`, `triangulate` of `MDelaunay.v` | invariant: planar triangulation of a convex polygon given by the boundary edges; visible edges form chains (counting starts and ends); the farthest point is outside the hull of the others | 3 (proved) |
| C87 | Binary64 keeps coordinates with 8 decimals exact | `ArithF.v` (binary64), `Point_new`, `pt_add`, `pt_sub`, `pt_eqb`, `pt_sameb`, `lex_ltb`, `purge`, `move`, `mirror_vertical` | each operation of SpecFloat is the rounded real one (Flocq); half an ulp is below 1/20 of 1e-8, so the final rounding to 8 decimals recovers the exact decimal; simulation of the heap model over the reals by the one over doubles | 10 (proved) |
| C88 | Geometry on multiples of 1/256 is exact in binary64 | `ArithF.v` (binary64), the products and predicates of `MLine.v`, `iscontinuous`, `isclosed`, `point_set`, `convex_hull` | differences and products of integers below 2^25 in units of 1/256 fit into 53 bits, so they are exact (Flocq: the result is representable); every comparison is one of integers; the list functions are related element by element to those over the reals, and the theorems over the reals (C37) are transferred | 7 (proved) |
| C89 | Rounding errors of the predicates on decimals | the same functions on decimals | half-ulp bounds of each operation add up to 3e-9; with three decimals the exact value is 0 or at least 1e-6, EPS lies between; distances of separated points are bounded below by a power of two through all roundings | 6 (proved) |
| C90 | Crossings, validity, convexity and orientation on whole coordinates are exact in binary64 | `ArithF.v` (binary64), `intersection_point`, `intersection_on_segment`, `common_part` of `MLine.v`, `poly_isvalid`, `isconvex`, `iscw`, `isccw` of `MPoly.v` | numerators and denominator are integers below 2^53, so only the quotient and the rounding to 8 decimals have errors; a quotient with a denominator up to 3.2e7 is a whole number or at least 3.1e-8 away from it, more than the errors and EPS together, so the comparisons with the bounding box are those of the exact point; the polygon functions are related element by element to those over the reals (C14, C34, C61) | 7 (proved) |
| C91 | find_loops misses no loop (unless walking took its walls away) | `find_loops`, `try_comb`, `comb_rounds`, `walk_rounds` of `MGroup.v`, `order` of `MPoly.v` | order() on segments of which two meet at every end keeps exactly the cycle of the first (`PComponent.v`: the walk along a permutation returns); then an invariant over the combinations: a loop not yet found lies in the remaining graph and its combination is still to come; segments taken out share no vertex with the rest, because no vertex of the loop branches | 7 (proved) |
| C92 | order(), walk_segments, find_loops and group validity on whole coordinates run as with exact numbers | `order` of `MPoly.v`, `walk_segments`, `find_loops`, `group_isvalid` of `MGroup.v`, in `FA` and in `RA` | simulation: on whole coordinates every test the functions make has the same outcome in both arithmetics - the square roots of two different whole numbers up to 3.2e7 are 1/12000 apart, so that the rounded ones compare in the same way; related states therefore stay related step by step; permutations chosen by a schedule are carried over along the relation, giving the exact schedule | 11 (proved) |
| C93 | The remaining queries: refined boundaries, added points, crossed sides, printed relations, degrees, walls of a room, sizes | the functions of `MRest.v` | refine_boundaries: a fold over the sides with the chain of points of divide_line (C21) for each, and the integer part of a quotient of at least one; add_internal_points: induction on the number of draws; intersectsConstraint: C90 for each side; the others: from the definitions with C47 and C31 | 11 (proved) |
| C94 | is_internal_point in floating point on whole coordinates | poly_is_internal_point, poly_is_external_point, is_on_boundary and bounding_box of `MPoly.v`, intersection_on_segment of `MLine.v`, with the binary64 instance | the bounding box of whole coordinates is exact; the rounded ray end is within 1e-5 of the unrounded one; Flocq error bounds for numerators, denominator and quotient of the intersection point, which is therefore on the same side of every box bound as the exact one (sides parallel to an axis need a finer bound); the number of crossed sides is then the exact one, whose parity is that of C35 | 1 (proved) |
| C95 | A vessel with a single loop of walls gets one room | `vessel_rooms` of `MRooms.v`: find_loops, keep_base_polygons, base_cycles, segments_in_cycles, contained_cycles and raum_erstellen in sequence | a combination in which every point occurs twice contains a loop and what is left of it contains another one, so only the combination of the single loop is used, and it is tried once; a segment between two corners of the loop would close a second loop, so the parts with all points on the loop are parts of it | 2 (proved) |
| C96 | A vessel whose walls are exactly one loop gets exactly one room | `walk_segments`, `find_loops` of `MGroup.v` and `vessel_rooms` of `MRooms.v`, unchanged; `ring` and `one_way` of `SpecRing.v` say what a single cycle is | walking: as long as no choice was ever open, the segments visited are the first edges of the cycle in order, so the polygon returned is the whole cycle; a segment object is reversed at most once per direction and the first segment is gone after the first round, so (directions not yet visited, segments ahead) decreases; find_loops: after the cycle is taken out, what stays is a path, on which walking finds nothing and no combination has every point twice | 8 (proved) |
| C97 | When walking along a graph of segments ends | `walk_segments` and `find_loops` of `MGroup.v`; the number of rounds is the fuel, `Running` means that it was not enough | ending: a segment object is reversed only when its direction is visited for the first time; between two such rounds the walk does not turn back, so its points are different unless they close a loop without the first segment; (directions not visited, points not on the path) decreases.  Not ending: the state after 8 rounds is computed and found again 3 rounds later, and the rounds depend on the state only | 5 (proved) |
| C98 | A standing vessel gets one room made of all its parts, and the room is reported inside of all of them | the graphs of `Mantel`, `FlachBoden` and the torispherical heads of `MVessel.v`, put together to a vessel in `SpecStack.v`; `raum_erstellen` and `raum_intex` of `MRaum.v`, `find_loops` of `MGroup.v`, the probe points of `MIntex.v` | the walls form the cycle bottom end, right sides, top end, left sides (reversed), by induction over the shells; neighbouring walls meet in a corner only and the others are apart; C95 and C96 then give the room.  For raum_intex the walls to the right of a probe point are counted: at most one on each side of its shell, and those of a head beyond the last level.  For whole sizes every operation of the constructors is exact in binary64, so that C96_whole applies | 5 (proved) |
| C99 | The loops of a vessel with a dividing plate are its two rooms and its outline, and what the search reports of them | the parts of C98 with one more flat end (`SpecPlate.v`); `find_loops` of `MGroup.v` | the plate is a segment across the cycle of C98; in such a graph every point has two or three segments, so a loop that uses a wall of one side of the plate uses all of them (an even-degree argument on the cycles of the two rooms); C91 then gives the results of find_loops.  The findings are runs of the binary64 model with the set orders of CPython | 7 (proved) |
| C100 | A vessel divided by a plate gets exactly its two rooms when the search sees all of its loops | `vessel_rooms` of `MRooms.v` on the parts of C99 (`SpecPlate.v`, `SpecPlateRooms.v`) | C99 and C91_once give three loops, each reported once; keep_base_polygons (invariants of C74) drops the one whose area is the sum of the two others; none of the two that are left contains the other one, because a corner of each is off the convex hull of the other; then C77 gives the rooms | 2 (proved) |
| C101 | In a vessel divided by plates every part is told the room of its own story only | `raum_intex` of `MRaum.v` and `graph_of` of `SpecSides.v` on the stories of `SpecStories.v` | each story is a standing vessel, so that C98's lemmas place the probe points of each part with respect to its walls; two nested inductions over the rooms and their walls, with the table as it is after the parts done so far as invariant | 1 (proved) |
| C102 | A head that divides a vessel has the room on its hollow side inside and the other one outside | `raum_intex` of `MRaum.v`, `head_intex` of `MIntex.v` and the walls of `SpecPartition.v` | the probe points of the head lie in the first shell of the room into which it bulges, where a flat end would leave an odd number of walls to their right (C98's lemmas); the two walls of the head add one for the points under it and an even number for those beyond it; then induction over the rooms and walls with the entry of the head as invariant | 3 (proved) |
| C103 | A head that divides a vessel does not disturb what is reported for the other parts | `raum_intex` of `MRaum.v`, `mantel_intex`, `head_intex`, `flachboden_intex` and `renew` of `MIntex.v`, the parts of `SpecHeadParts.v` | the room on the hollow side is a standing vessel (C98's lemmas); for the other one the probe points are located: those of the shell around the head are within 1/50000 of the radius of a wall and at 1/100 or 99/100 of its height, hence beyond the head, all others are higher than it; for such points the walls of the head count like those of a flat plate; then induction over the rooms and walls with the entry of the part as invariant | 2 (proved) |

## 4. Trusted base

* Coq's kernel, including `vm_compute`.
* The axioms of the standard library listed in section 6 and no others:
  `ClassicalDedekindReals.sig_forall_dec`, `ClassicalDedekindReals.sig_not_dec`,
  `FunctionalExtensionality.functional_extensionality_dep` (all three from `Reals`) and
  `Classical_Prop.classic`.  No axioms of our own, no functors, no plugins.
* `coqchk` on the compiled files also mentions `Coq.ssr.ssrunder.Under_rel.under_rel_done` and its siblings: fields
  of a sealed module of the standard library, loaded because Flocq (used by C87-C90, C92-C94) requires ssreflect.  No
  theorem depends on them, as section 6 shows.
* Faithfulness of the model to the Python source is by reading; each definition cites the lines it
  models and says where it simplifies.

## 5. Modelled and not modelled

Modelled: SR_point.py, SR_line.py, additional_stuff.py (all but plotting and string conversion);
SR_polygon.py: everything cited in `MPoly.v`, `MHeap.v`, `MDelaunay.v`, `MTri.v`, `MKeep.v`, `MRest.v`; SR_polygon_group.py: what
`MGroup.v`, `MCycles.v`, `MBase.v`, `MContain.v`, `MIntex.v` and `MRest.v` cite; SR_hauptteile.py: what `MVessel.v`, `MSplit.v`, `MRaum.v`, `MIntex.v`, `MKrempe.v` and `MRest.v` cite.

Not modelled:

* plotting, logging/printing, `__repr__`/`__str__`, `sys.stdout` redirection, unit test runners;
* reading of `eval`-ed strings; `deepcopy` is the identity on values (the copies are never shared);
* `x ** 2` is `x * x` (OverflowError of huge floats is not modelled);
* inputs of a wrong type, except for the Point constructor (C04) and `from_dict` (C56);
* the C library `triangle` (its answers are arbitrary);
* Delaunay2d for points of which three are nearly on one line: termination and planarity are proved in
  general position only (C85, C86); C45 states the invariants kept by every step in any case.

## 6. What Print Assumptions lists for each theorem

* **closed under the global context (no axiom)** — 112 theorems: C02_not_transitive_refuted, C02_point_eq_binary64, C03_set_contract_refuted, C04_stale_validity_refuted, C04_two_coordinates_refuted, C04_validity_frozen, C04_validity_iff, C04_validity_two_numbers, C08_on_and_right_refuted, C16_line_reversed_class_refuted, C20_angle_domain_refuted, C24_bounding_box, C25_discontinuous_refuted, C26_discontinuity, C27_near_points_refuted, C32_findings_refuted, C32_no_invention, C34_iscw_nonconvex_refuted, C34_spike_refuted, C36_on_boundary_refuted, C40_cw, C40_polygon_from_nodes, C42_cw_circle_refuted, C43_chain_refuted, C43_simplify_refuted, C44_add, C45_first_triangle, C45_flip_consistent, C45_flip_replaces, C45_flip_total, C45_flips_keep, C45_insert, C45_makeKey, C46_false_loop_refuted, C46_find_loops, C46_set_order_refuted, C46_shared_segment_refuted, C46_start_refused, C46_walk, C47_many_refuted, C48_always_empty, C48_disjunct_refuted, C49_all, C49_exact, C49_hash_refuted, C49_sound, C50_again, C50_index_refuted, C50_inner, C50_outside_refuted, C50_plain, C50_rooms, C50_total, C51_entries, C51_reported, C51_total, C51_vacuous_refuted, C52_foreign, C52_many, C52_symmetric_refuted, C52_unique, C53_axis_refuted, C53_standzarge, C56_accepted, C56_missing, C56_result, C56_rohrboden_refuted, C56_standzarge_refuted, C59_collinear_not_parallel_refuted, C61_overlap_refuted, C63_find_segment_by_point, C66_next_segment, C68_mixed_directions_refuted, C70_cache, C70_fresh, C71_nested_inside_refuted, C72_polygons, C73_empty, C73_not_shortest_refuted, C74_few, C74_hash_refuted, C74_lost_refuted, C74_nested_refuted, C75_notch_refuted, C76_shared_refuted, C77_edgelist, C78_lookup, C78_names, C79_axis_refuted, C79_flat_internal, C80_renew, C81_gap_refuted, C81_refused, C81_tall_refuted, C84_delaunay_refuted, C84_fresh, C84_kept, C84_untriangulated, C87_large_refuted, C87_tolerance_refuted, C88_parallel_refuted, C89_right_refuted, C91_lost_room_refuted, C91_same_loop_twice_refuted, C93_internal_points, C93_internal_points_end, C93_relpos, C93_room, C97_endless_refuted, C97_find_loops_refuted, C99_overlap_refuted, C99_room_lost_refuted.
* **`ClassicalDedekindReals.sig_forall_dec`, `ClassicalDedekindReals.sig_not_dec`, `Classical_Prop.classic`, `FunctionalExtensionality.functional_extensionality_dep`** — 254 theorems: C01_point_rounding, C01_point_rounding_monotone, C01_point_rounding_nearest, C02_point_eq_iff, C02_point_eq_separated, C03_set_identical, C03_set_separated, C05_distance_eq, C05_distance_metric, C06_add_sub, C06_add_sub_rounding, C07_parallel, C07_parallel_trans, C07_products, C08_sides, C08_sides_reverse, C09_box_not_line_refuted, C09_internal_iff, C09_internal_mirror_refuted, C09_on_line_distance, C09_on_line_iff, C10_intersection_error, C10_intersection_point, C10_intersection_symmetric, C11_line_point_distance, C12_continuous, C12_touch_iff, C12_touch_only_one_refuted, C13_class_refuted, C13_common_part, C13_common_part_sym, C13_null_segment_refuted, C13_tolerance_refuted, C14_intersection_on_segment_sym, C14_proper_crossing, C15_eq_not_loose_refuted, C15_loose_equal_equiv, C15_loose_equal_iff, C16_reverse, C17_segment_mirror, C17_segment_move, C18_norm_unitvector, C19_direction, C19_direction_equal, C19_opposite_direction, C20_angle_between_lines, C20_angle_extremes, C20_angle_from_start_point, C21_divide_line, C21_divide_line_error, C22_point_on_line_at_ratio, C23_add_point_on_line, C24_bounding_box_big_refuted, C24_bounding_box_binary64, C24_bounding_box_exact, C24_order_laws, C25_close, C27_clusters, C27_purge, C27_skipped, C28_appended_point, C28_history, C28_invariants, C28_move, C28_move_back, C29_quarter_turns, C29_rotate, C29_rotate_about_xy, C30_invariants, C30_involution, C30_mirror, C31_order_cycle, C32_cycle_of_first, C32_limit, C33_append, C34_convex_orientation, C34_isconvex, C34_isconvex_invariant, C34_iscw_reversed, C34_triangle_orientation, C35_even_odd, C35_even_odd_convex, C35_negative_refuted, C35_permutation, C35_vertex, C37_hull, C37_hull_any, C37_hull_few, C37_hull_set, C38_area_laws, C38_heron, C39_angles, C39_quality, C41_square, C42_arc, C42_arc_rejects, C43_cycles_kept, C43_remove_outliers, C43_simplify, C45_ccw, C45_flip_delaunay, C45_flip_iff, C45_visible, C46_single_loop_refuted, C46_walk_finds, C47_cycle, C47_degree, C47_degrees, C47_group, C47_handshake, C47_parity, C53_flat, C53_isvalid, C53_mantel, C53_valid, C54_extent, C54_flat_refuted, C54_shape, C54_tangent, C55_one_wall_refuted, C55_split_height, C55_split_with, C57_sphere_line, C58_rotationsmatrix, C60_midpoint_refuted, C61_convex_valid, C61_isvalid, C62_disjoint_refuted, C62_intersection_on_endpoint, C63_neighbour, C64_loose_equal, C64_loose_equal_asymmetric_refuted, C64_loose_subset, C65_midpoint, C67_collinear_points, C68_integer_corners, C68_limit, C68_nothing_to_remove, C68_remove_collinear, C69_areas, C69_ear_clipping, C70_area, C70_degenerate, C70_stale_refuted, C70_triangulated, C71_congruent, C71_disjunct, C71_enclosed, C71_nested_refuted, C71_overlap, C71_touch, C73_duplicates, C73_path, C74_all, C74_rooms, C75_contained, C75_interior, C76_cycles, C77_typeerror, C78_own_names, C79_apex_refuted, C79_flat, C79_head, C79_mantel, C79_uneven_refuted, C80_mantel, C81_sharp, C81_small, C81_twice_refuted, C82_round, C82_small, C83_in_turn, C83_inner_refuted, C83_missed, C83_one_part, C83_outer_refuted, C84_stale_refuted, C85_flips_end, C86_add, C86_flat, C86_triangulate, C87_again, C87_compare, C87_history, C87_opposite, C87_restored, C87_stored, C87_sum, C87_undo, C88_distance, C88_hull, C88_polygon, C88_products, C88_relations, C88_side, C89_chain, C89_collinear, C89_error, C89_right, C89_three, C90_common, C90_convex, C90_crossing, C90_intersection, C90_orientation, C90_points, C90_valid, C91_dead_end, C91_missed_only_shared, C91_no_loop_missed, C91_once, C91_plan, C92_dead_end, C92_find_loops, C92_group, C92_missed_only_shared, C92_no_loop_missed, C92_order, C92_order_cycle, C92_segments, C92_single_loop_refuted, C92_walk, C92_walk_finds, C93_constraint, C93_degree, C93_from_points, C93_ordered_copy_refuted, C93_refine, C93_refine_refused, C93_size, C94_even_odd, C95_one_loop, C95_one_room, C96_finds, C96_one_loop, C96_one_room, C96_plain_refuted, C96_room, C96_walk_ends, C96_walls, C96_whole, C97_ends, C97_no_loop, C97_whole, C98_intex, C98_loop, C98_one_room, C98_polygon, C98_whole, C99_all_found, C99_each_once, C99_in_general, C99_loops, C99_whole.
