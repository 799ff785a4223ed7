{"id": "C01", "title": "Geom1D values are always in normal form", "statement": "Every Geom1D obtained from the public API exposes (get_intervals) a list of intervals (a,b) with a<b, sorted, and with a strictly positive gap between consecutive intervals, so the representation never contains empty, overlapping or touching pieces.", "quantifier": "all finite interval lists with rational or infinite end points, and all finite expression trees built from Geom1D(..), empty, full, |, &, -, ^, ~, buffer, filter, disjoint_pieces", "why_tests_cant": "hypothesis draws small random expression trees; normal form has to survive every composition of operators and every coincidence of end points", "anchors": ["plycutter/geometry/geom1d.py: Geom1D.__init__ (64-97)"]}
{"id": "C02", "title": "Geom1D construction denotes the union of its intervals", "statement": "Reading every interval as closed-open, a rational point belongs to Geom1D(ivs) exactly when it belongs to one of the given intervals, whatever their order, overlap, repetition or emptiness.", "quantifier": "all interval lists (rational/infinite end points) and all rational points", "why_tests_cant": "the merge loop depends on the relative order of arbitrarily many end points", "anchors": ["plycutter/geometry/geom1d.py: Geom1D.__init__", "plycutter/geometry/geom1d.py: __or__"]}
{"id": "C03", "title": "Geom1D.locate classifies points exactly", "statement": "locate(p) is 0 exactly when p is an end point of a maximal interval of the set, 1 exactly when p lies strictly inside one, and -1 otherwise; the early exit of the scan never hides an interval.", "quantifier": "all Geom1D values and all rational points", "why_tests_cant": "a sampled point never lands on every boundary/early-exit combination", "anchors": ["plycutter/geometry/geom1d.py: locate (99-113)"]}
{"id": "C04", "title": "Geom1D set operators are pointwise Boolean operations", "statement": "For every rational point x (closed-open reading, no point excepted): x in a|b iff x in a or x in b; x in a&b iff both; x in a-b iff in a and not in b; x in a^b iff in exactly one; x in ~a iff not in a.", "quantifier": "all pairs of Geom1D values and all rational points", "why_tests_cant": "& is computed as ~(~a|~b) and ^ through four operators; only a proof covers every arrangement of end points and infinities", "anchors": ["plycutter/geometry/geom1d.py: __or__, __and__, __sub__, __xor__, __invert__ (168-186)"]}
{"id": "C05", "title": "Geom1D is canonical, so the Boolean-algebra laws hold as equalities", "statement": "Two Geom1D values with the same points have identical interval lists; hence commutativity, associativity, distributivity, De Morgan, absorption, double complement and the identities with empty/full hold as equality of get_intervals().", "quantifier": "all Geom1D values", "why_tests_cant": "the repository's own test (test_geom1d equivalence rules) compares at sampled points only", "anchors": ["plycutter/geometry/geom1d.py: Geom1D", "plycutter/geometry/tests/test_geom1d.py: equivalence_rules"]}
{"id": "C06", "title": "Non-negative buffer is the Minkowski sum", "statement": "For amount >= 0 a rational point that is not an end point of the result lies in g.buffer(amount) iff it is at distance at most amount from a point of g; neighbouring pieces closer than 2*amount are fused.", "quantifier": "all Geom1D values, all rational amounts >= 0, all rational points", "why_tests_cant": "fusion of an arbitrary number of pieces", "anchors": ["plycutter/geometry/geom1d.py: buffer (145-157)"]}
{"id": "C07", "title": "Negative buffer is erosion and removes exactly the thin pieces", "statement": "For amount<0, g.buffer(amount) keeps the points whose whole |amount|-neighbourhood lies in g, and g.buffer(-e).buffer(e) equals g with exactly the pieces of length <= 2e removed (this is what choose_the_ok_side relies on).", "quantifier": "all Geom1D values, all rational e > 0", "why_tests_cant": "boundary lengths exactly 2e and infinite pieces", "anchors": ["plycutter/geometry/geom1d.py: buffer", "plycutter/heuristics.py: choose_the_ok_side (389-392)"]}
{"id": "C08", "title": "measure1d is the length measure", "statement": "measure1d is >= 0, is 0 exactly for the empty geom, is monotone in the point set, and satisfies measure(a|b)+measure(a&b)=measure(a)+measure(b) with infinities handled.", "quantifier": "all Geom1D values (finite and infinite)", "why_tests_cant": "additivity must hold for every overlap pattern", "anchors": ["plycutter/geometry/geom1d.py: measure1d (159-161)"]}
{"id": "C09", "title": "is_bounded and is_empty are exact", "statement": "is_empty() iff no point belongs to g; is_bounded() iff the set lies between two rationals.", "quantifier": "all Geom1D values", "why_tests_cant": "quantifies over all points", "anchors": ["plycutter/geometry/geom1d.py: is_empty, is_bounded"]}
{"id": "C10", "title": "filter and disjoint_pieces decompose into maximal pieces", "statement": "disjoint_pieces() are pairwise disjoint, each a single interval, and their union is g; filter(f) is the union of exactly those pieces whose end points satisfy f.", "quantifier": "all Geom1D values and all predicates", "why_tests_cant": "universally quantified predicate", "anchors": ["plycutter/geometry/geom1d.py: disjoint_pieces, filter"]}
{"id": "C11", "title": "Geom1D construction rejects exactly the inexact or inverted inputs", "statement": "Geom1D(ivs) raises iff some interval does not have two end points, is inverted, or has an end point that is neither infinite nor of an exact type; otherwise no numeric value is altered (every end point of the result is an end point of the input).", "quantifier": "all interval lists over exact numbers, floats and infinities", "why_tests_cant": "error behaviour for every mixture of types and orders", "anchors": ["plycutter/geometry/geom1d.py: __init__ (64-74)", "plycutter/plytypes.py: FractionFromExact, FractionFromExactOrInf"]}
{"id": "C12", "title": "AABB.include_point builds the tightest box", "statement": "After including any sequence of points in a fresh AABB, contains(q) holds iff both coordinates of q lie between the minimum and maximum of the included coordinates; an AABB that never included a point contains nothing; middle is always the exact centre.", "quantifier": "all finite point sequences, all query points", "why_tests_cant": "NaN-initialised comparisons and the contains short-cut interact for every order of points", "anchors": ["plycutter/geometry/aabb.py: AABB.__init__, include_point, contains"]}
{"id": "C13", "title": "AABB.intersects_segment / intersects_aabb decide intersection exactly", "statement": "intersects_segment(s) is True iff some point of the closed segment lies in the closed box; intersects_aabb iff the boxes share a point; an empty AABB intersects nothing.", "quantifier": "all boxes, all segments including degenerate ones", "why_tests_cant": "separating-axis completeness is a continuum statement", "anchors": ["plycutter/geometry/aabb.py: intersects_segment (67-90), intersects_aabb"]}
{"id": "C14", "title": "Line-line intersection is exact and its assertions never fire", "statement": "segment_segment_general_intersection(l0,l1) raises iff the lines are parallel; otherwise it returns the unique common point of the two carrier lines together with its parameters along both, and the two internal consistency assertions hold.", "quantifier": "all pairs of rational segments", "why_tests_cant": "algebraic identity over all rationals", "anchors": ["plycutter/geometry/impl2d/primitive2d.py: segment_segment_general_intersection (22-52)"]}
{"id": "C15", "title": "line_segment_point_fraction is exact", "statement": "It returns f iff the point equals start + f*(end-start) (f unique for a proper segment, 0 for a degenerate one), and None iff the point is off the carrier line.", "quantifier": "all segments (vertical, horizontal, degenerate) and points", "why_tests_cant": "case analysis over all rational coordinates", "anchors": ["plycutter/geometry/impl2d/primitive2d.py: line_segment_point_fraction (55-75)"]}
{"id": "C16", "title": "simple_polygon_area is the signed area", "statement": "The value is unchanged by rotating the vertex list or translating, is negated by reversal, splits additively along any chord, scales by the determinant under linear maps, and is positive for clockwise simple convex polygons (the docstring's 'CCW = positive' is wrong).", "quantifier": "all vertex lists of any length", "why_tests_cant": "unbounded lists, all rationals", "anchors": ["plycutter/geometry/impl2d/primitive2d.py: simple_polygon_area (78-92)"]}
{"id": "C17", "title": "Point location returns 0 exactly on the boundary", "statement": "locate_point_polygon_winding_number(poly,p)=0 iff p lies on some closed edge of poly (including vertices, horizontal edges and the closing edge).", "quantifier": "all polygons (any length >= 1, also self-intersecting) and all points", "why_tests_cant": "horizontal-edge and vertex special cases for every vertex order", "anchors": ["plycutter/geometry/impl2d/primitive2d.py: locate_point_polygon_winding_number (106-158)"]}
{"id": "C18", "title": "Point location off the boundary decides non-zero winding number", "statement": "For p off the boundary the result is 1 iff the winding number of poly around p (defined by fan triangulation, independent of any ray) is non-zero, else -1; the result does not depend on the start vertex or orientation of the list.", "quantifier": "all closed polygons and points off the boundary", "why_tests_cant": "counts both half-rays at once; correctness is a parity/telescoping argument over arbitrarily many edges", "anchors": ["plycutter/geometry/impl2d/primitive2d.py: locate_point_polygon_winding_number"]}
{"id": "C19", "title": "Point location is constant along paths that avoid the boundary", "statement": "If a polyline from p to q does not meet any edge of poly, locate(poly,p)=locate(poly,q): testing one sample point per face decides the whole face.", "quantifier": "all polygons and polylines", "why_tests_cant": "topological statement about all points of a region", "anchors": ["plycutter/geometry/impl2d/primitive2d.py: locate_point_polygon_winding_number", "plycutter/geometry/impl2d/geom2d_simple_holes.py: _arrangement_op"]}
{"id": "C20", "title": "Convex polygons and rectangles are located by half-planes", "statement": "For a clockwise convex polygon, locate is 1 iff the point is strictly to the right of every edge; Geom2D.rectangle(x0,y0,x1,y1) (any corner order, non-degenerate) contains exactly the open box, has area |x1-x0|*|y1-y0|, and has locate 0 exactly on the box boundary; a degenerate rectangle is rejected.", "quantifier": "all convex polygons / all coordinates and points", "why_tests_cant": "all points of the plane", "anchors": ["plycutter/geometry/geom2dbase.py: rectangle", "plycutter/geometry/impl2d/geom2d_simple_holes.py: polygon", "plycutter/geometry/impl2d/primitive2d.py: locate_point_polygon_winding_number"]}
{"id": "C21", "title": "vector_frangle is a faithful rational angle", "statement": "For v != 0, 0 <= vector_frangle(v) < 8, frangles agree iff the vectors point in the same direction, frangle_unit_square_vector inverts it (up to positive scaling / modulo 8), and the zero vector is rejected.", "quantifier": "all non-zero rational vectors, all rational frangles", "why_tests_cant": "eight-octant case split over all rationals", "anchors": ["plycutter/geometry/impl2d/frangle2d.py: vector_frangle, frangle_unit_square_vector"]}
{"id": "C22", "title": "frangles order vectors clockwise and rotation by 90 degrees is +2", "statement": "For vectors in the same open half-turn, the order of frangles is the sign of the cross product (clockwise), adding 2 (mod 8) is exactly rotation by 90 degrees, adding 4 is negation.", "quantifier": "all pairs of non-zero vectors", "why_tests_cant": "order must be transitive and total around the circle", "anchors": ["plycutter/geometry/impl2d/frangle2d.py: vector_frangle", "plycutter/geometry/impl2d/arrangement2d.py: _Vertex._key"]}
{"id": "C23", "title": "SegmentTree1D.stab equals brute force", "statement": "For every list of segments with low<=high and every value v, SegmentTree1D(segs).stab(v) yields exactly the segments of the list with low<=v<=high, each exactly as often as it occurs, and none of the internal assertions fires; a segment with high<low is rejected.", "quantifier": "all segment lists (any length, duplicates, shared end points) and all values inside or outside the range", "why_tests_cant": "tree shape depends on the number and coincidence of end points", "anchors": ["plycutter/geometry/impl2d/segment_tree.py: SegmentTree1D.__init__, stab, Node.add_segment, Node.stab", "plycutter/geometry/impl2d/segment_tree.py: SegmentTree1D_Slow"]}
{"id": "C24", "title": "The quadtree never loses a match", "statement": "After any sequence of insertions every stored segment that meets the query segment inside the root box is returned by find, and only inserted segments are returned.", "quantifier": "all insertion sequences, thresholds, boxes and queries", "why_tests_cant": "splits depend on the whole insertion history", "anchors": ["plycutter/geometry/impl2d/pmr_quadtree.py: PMRQuadTree, SegmentPMRQuadTree.find"]}
{"id": "C25", "title": "Merging cells conserves boundary and area", "statement": "For any insertion order and any set-iteration order, the half-edges of the merged cells are exactly the half-edges of the inserted cells minus mutually opposite pairs; in particular the total signed area and the total winding number around every point are conserved.", "quantifier": "all sequences of cells with distinct half-edges, all iteration orders of Python sets", "why_tests_cant": "set iteration order is nondeterministic and histories are unbounded", "anchors": ["plycutter/geometry/impl2d/cell_merger.py: CellMergerSlow.add_cell, Cell.merged"]}
{"id": "C26", "title": "Merging never gets stuck", "statement": "Cell.merged never raises KeyError and terminates: re-threading the remaining half-edges into closed cells always succeeds because every vertex keeps equal in- and out-degree.", "quantifier": "all pairs of cells with distinct half-edges", "why_tests_cant": "Eulerian argument over arbitrary graphs", "anchors": ["plycutter/geometry/impl2d/cell_merger.py: Cell.merged (59-98)"]}
{"id": "C27", "title": "Every inserted cell stays accounted for", "statement": "After any sequence of add_cell calls the consistency check of get_cells/get_cells_originals passes: every inserted cell is recorded as an original of a surviving cell or as annihilated, never both, never lost.", "quantifier": "all insertion histories and iteration orders", "why_tests_cant": "history-dependent bookkeeping", "anchors": ["plycutter/geometry/impl2d/cell_merger.py: add_cell, check"]}
{"id": "C28", "title": "canonicalize_cell is a canonical rotation", "statement": "It returns a rotation of the cell starting at a minimal vertex; it is idempotent, and two rotations of a cell with a unique minimum have the same canonical form.", "quantifier": "all cells of any length", "why_tests_cant": "all rotations of all lists", "anchors": ["plycutter/geometry/impl2d/cell_merger.py: canonicalize_cell"]}
{"id": "C29", "title": "The y-shear leaves no segment horizontal", "statement": "After y += alpha*x with the alpha chosen by the code, no non-degenerate segment of the input is horizontal, and undoing the shear gives back the exact input points.", "quantifier": "all finite sets of non-degenerate segments", "why_tests_cant": "minimum over arbitrarily many slopes", "anchors": ["plycutter/geometry/impl2d/scan2d.py: _find_general_y_shear, all_segment_intersections"]}
{"id": "C30", "title": "Pairwise intersection is exact", "statement": "_nonparallel_intersection_point(a,b) returns the unique common point of the closed segments if they are not parallel and meet, and None otherwise; it is symmetric in its arguments and in the orientation of each segment.", "quantifier": "all pairs of segments", "why_tests_cant": "sign normalisation cases over all rationals", "anchors": ["plycutter/geometry/impl2d/scan2d.py: _nonparallel_intersection_point (320-347)"]}
{"id": "C31", "title": "Reported sweep intersections are real and contain all endpoints touching", "statement": "Every (pt, segs) yielded by all_segment_intersections has pt on every segment of segs, segs has at least two distinct members, and the points are yielded in increasing sweep order without repetition.", "quantifier": "all finite sets of distinct non-degenerate segments", "why_tests_cant": "event-queue histories are unbounded", "anchors": ["plycutter/geometry/impl2d/scan2d.py: _all_segment_intersections_no_horizontal (193-313)"]}
{"id": "C32", "title": "The sweep finds every crossing", "statement": "For every two distinct non-parallel input segments that meet in a point, and every end point of one segment lying on another, all_segment_intersections yields that point together with both segments; the sweep terminates and raises nothing.", "quantifier": "all finite sets of distinct non-degenerate segments", "why_tests_cant": "Bentley-Ottmann completeness depends on the order of all events", "anchors": ["plycutter/geometry/impl2d/scan2d.py: all_segment_intersections, _SweepKey.__lt__"]}
{"id": "C33", "title": "The general direction is parallel to no edge", "statement": "_find_general_vector always succeeds for a non-empty edge set and returns a vector that is neither parallel nor perpendicular to any edge of the arrangement.", "quantifier": "all finite sets of edges", "why_tests_cant": "depends on the sorted frangles of all edges", "anchors": ["plycutter/geometry/impl2d/arrangement2d.py: _find_general_vector (574-602)"]}
{"id": "C34", "title": "Face tracing partitions the half-edges", "statement": "Following 'next counter-clockwise edge at the head' from any half-edge returns to it; the traced cells are pairwise disjoint as half-edge sets and cover every half-edge exactly once; get_next_cw and get_next_ccw are mutually inverse.", "quantifier": "all symmetric half-edge sets with distinct directions at each vertex, any processing order", "why_tests_cant": "orbits of a permutation on arbitrary graphs", "anchors": ["plycutter/geometry/impl2d/arrangement2d.py: _Vertex.get_next_cw/get_next_ccw, SegmentArrangement.__init__find_cells"]}
{"id": "C35", "title": "Signed cell areas of an arrangement sum to zero", "statement": "The signed areas of all cells (positive inside faces, negative outer boundaries) add up to 0, and so do their winding contributions around any point.", "quantifier": "all arrangements", "why_tests_cant": "sum over all faces", "anchors": ["plycutter/geometry/impl2d/arrangement2d.py: __init__find_cells"]}
{"id": "C36", "title": "The sample point of a face sees no edge between it and the face's first edge", "statement": "_find_point_in_cell returns a point on the right-hand side of the cell's first half-edge such that the open segment from the edge's midpoint to it meets no edge of the arrangement.", "quantifier": "all arrangements and cells", "why_tests_cant": "depends on all edges via the stabbing structure", "anchors": ["plycutter/geometry/impl2d/arrangement2d.py: _find_point_in_cell (728-765)", "plycutter/geometry/impl2d/arrangement2d.py: ray_halfedge_query_the_general_ray"]}
{"id": "C37", "title": "locate of a polygon with holes and of a Geom2D", "statement": "For a point on no boundary: Simple_Polygon_With_Holes.locate is 1 iff inside the outer ring and inside no hole; Geom2D.locate is 1 iff some polygon contains the point, -1 iff none does; the empty Geom2D contains nothing.", "quantifier": "all Geom2D values and points", "why_tests_cant": "any number of polygons and holes", "anchors": ["plycutter/geometry/impl2d/geom2d_simple_holes.py: Simple_Polygon_With_Holes.locate, Geom2D_Py_Simple_Holes.locate"]}
{"id": "C38", "title": "Geom2D set operators are pointwise Boolean operations", "statement": "Whenever a|b, a&b, a-b or Geom2D.union return, every point that lies on no edge of the operands is in the result iff the Boolean combination of its membership in the operands says so.", "quantifier": "all Geom2D operands and all points off the operand edges", "why_tests_cant": "the implementation only checks one sample point per face; membership everywhere is a topological consequence", "anchors": ["plycutter/geometry/impl2d/geom2d_simple_holes.py: _arrangement_op (166-195), __or__, __and__, __sub__, union"]}
{"id": "C39", "title": "Empty-operand short-cuts are neutral", "statement": "a|empty, empty|a and a-empty return an object with the same locate as a; empty&a and empty-a are empty.", "quantifier": "all Geom2D values and points", "why_tests_cant": "short-cut branches bypass the arrangement", "anchors": ["plycutter/geometry/impl2d/geom2d_simple_holes.py: __or__, __sub__"]}
{"id": "C40", "title": "union and union_tree agree for any number of operands", "statement": "union_tree(geoms) and Geom2D.union(geoms) return a geom that contains a (generic) point iff some operand does, for any number of operands (batching by 64 loses nothing) and the batching loop terminates.", "quantifier": "all operand lists of any length", "why_tests_cant": "batch boundaries at 64, 4096, ...", "anchors": ["plycutter/geometry/impl2d/geom2d_simple_holes.py: union (202-207), union_tree (424-446)"]}
{"id": "C41", "title": "simplify_degeneracies preserves area and leaves no degenerate corner", "statement": "The result is a sub-list of the input in order, has the same signed area, and is either empty or has no three cyclically consecutive collinear vertices; the loop terminates.", "quantifier": "all vertex lists", "why_tests_cant": "nested rewriting loop with index wrap-around", "anchors": ["plycutter/geometry/impl2d/geom2d_simple_holes.py: simplify_degeneracies (560-600)"]}
{"id": "C42", "title": "Positive buffer contains the original, negative buffer is contained in it", "statement": "g.buffer(r) with r>0 contains every point of g, g.buffer(-r) contains only points of g, and g.buffer(0) is g.", "quantifier": "all Geom2D values and radii", "why_tests_cant": "holds for all nestings of polygons and holes, or fails for a specific nesting", "anchors": ["plycutter/geometry/impl2d/geom2d_simple_holes.py: buffer, _minkowski_convex_op (354-404)"]}
{"id": "C43", "title": "Area of a Geom2D", "statement": "area() is the sum over polygons of outer area minus hole areas; every constructed polygon has positive outer and hole area; polygon(points, reorient=True) accepts both orientations and gives the same area, rejecting zero-area input.", "quantifier": "all polygons and Geom2D values", "why_tests_cant": "unbounded vertex lists", "anchors": ["plycutter/geometry/impl2d/geom2d_simple_holes.py: area, polygon, Simple_Polygon_With_Holes.__init__"]}
{"id": "C44", "title": "Interside look-ups are consistent", "statement": "In a sheetplex built by create_intersections every interside is found again by its id, opposite() is an involution that swaps the two sheets, and intersides(sheet) enumerates exactly the sides lying on that sheet.", "quantifier": "all sheetplexes built from any number of sheets", "why_tests_cant": "any number of sheets and intersections", "anchors": ["plycutter/sheetplex.py: interside, intersides, InterSide.opposite, Intersection.side_by_sheet", "plycutter/create_sheetplex.py: create_intersections"]}
{"id": "C45", "title": "limit restricts a sheetplex to the given sheets", "statement": "limit(ids) returns the sheetplex with exactly the sheets in ids and the intersections both of whose sheets are in ids.", "quantifier": "all sheetplexes and id sets", "why_tests_cant": "must hold whenever an intersection's first sheet is selected", "anchors": ["plycutter/sheetplex.py: SheetPlex.limit (73-88)"]}
{"id": "C46", "title": "Intersection ids identify the unordered sheet pair", "statement": "Two different unordered pairs of sheets get different intersection ids, and every unordered pair of non-parallel sheets gets exactly one intersection with one interside per sheet.", "quantifier": "all sheet lists with the generated ids s0, s1, ...", "why_tests_cant": "string joining over all ids", "anchors": ["plycutter/create_sheetplex.py: intersection_id, create_intersections, create_intersection"]}
{"id": "C47", "title": "make_fingers covers exactly the selected band", "statement": "A point lies strictly inside interside.make_fingers(where, f0, f1) iff its coordinate along the joint is inside where and its normal coordinate lies strictly between the two selected offsets.", "quantifier": "all interside frames (direction != 0, distinct offsets), all bounded Geom1D, all points", "why_tests_cant": "all points of the plane", "anchors": ["plycutter/sheetplex.py: InterSide.make_fingers (234-280)"]}
{"id": "C48", "title": "Projecting fingers back recovers the selected ranges", "statement": "interside.project_to_1d(interside.make_fingers(where)) equals where (for an exactly unit direction).", "quantifier": "all intersides with exact unit direction, all bounded where", "why_tests_cant": "any number of fingers", "anchors": ["plycutter/sheetplex.py: project_to_1d, make_fingers", "plycutter/geometry/impl2d/geom2d_simple_holes.py: project_to_1d"]}
{"id": "C49", "title": "An intersection range is never chosen by one side and still ok for the other", "statement": "From a fresh SheetBuild, after any sequence of successful choose/unchoose operations, interside_chosen[i] and interside_ok[opposite(i)] have no common point.", "quantifier": "all operation sequences and ranges", "why_tests_cant": "invariant over unbounded histories", "anchors": ["plycutter/sheetbuild.py: choose_interside, unchoose_interside, _check (180-182)"]}
{"id": "C50", "title": "chosen stays within ok up to the documented slack", "statement": "After any sequence of successful choose/unchoose operations each interside's chosen range exceeds its ok range by at most 1e-6 of length per choose call, and the two sides' chosen ranges overlap by at most that much.", "quantifier": "all operation sequences", "why_tests_cant": "tolerances accumulate over histories", "anchors": ["plycutter/sheetbuild.py: choose_interside (105-137)"]}
{"id": "C51", "title": "Choices are monotone and local", "statement": "choose/unchoose never remove anything from a chosen region, never add anything to an ok region, touch only the named interside and its opposite, and the fields for all other intersides and sheets are unchanged.", "quantifier": "all states, operations and ranges", "why_tests_cant": "frame conditions over all keys", "anchors": ["plycutter/sheetbuild.py: choose_interside, unchoose_interside, map_or_geom, map_sub_geom"]}
{"id": "C52", "title": "Sanity checks are elided at most check_interval times in a row", "statement": "Whatever the call history, among any check_interval+1 consecutive check() calls at least one really checks, and check(force=True) always checks.", "quantifier": "all call histories", "why_tests_cant": "global counter over unbounded history", "anchors": ["plycutter/sheetbuild.py: check (144-153)"]}
{"id": "C53", "title": "A sheet area removed or chosen elsewhere can not be chosen", "statement": "choose_interside removes the opposite side's finger area from the opposite sheet's ok area, so that no later choice adds material there; material added to sheet_chosen is always within sheet_ok at that time.", "quantifier": "all operation sequences", "why_tests_cant": "2D invariant over histories", "anchors": ["plycutter/sheetbuild.py: choose_interside (121-137)"]}
{"id": "C54", "title": "random_min_max partitions the length", "statement": "For every n>=1, every rng and mn*n<=total<=mx*n, the function returns n consecutive intervals starting at 0 and ending at total, each of length between mn and mx, and its feasibility assertion never fires (exact arithmetic).", "quantifier": "all n, bounds and random draws", "why_tests_cant": "random draws and processing order", "anchors": ["plycutter/heuristics.py: random_min_max (403-433)"]}
{"id": "C55", "title": "The drawn finger count is always feasible", "statement": "Whenever single_fingers_random draws a finger count n for a range of length L, min_width*n <= L <= max_width*n, so random_min_max is never called infeasibly.", "quantifier": "all lengths, widths and random draws", "why_tests_cant": "rounding and parity adjustment cases", "anchors": ["plycutter/heuristics.py: single_fingers_random (472-500)"]}
{"id": "C56", "title": "Generated fingers alternate with what is chosen at both ends", "statement": "The first generated finger is on the other side than the material chosen before the range and the last one on the other side than the material chosen after it.", "quantifier": "all ranges, widths and random draws", "why_tests_cant": "parity of a random count", "anchors": ["plycutter/heuristics.py: single_fingers_random (470-510)"]}
{"id": "C57", "title": "Fingers of the two sides tile the range", "statement": "The fingers assigned to the two sides of an intersection range are disjoint and together cover exactly the range.", "quantifier": "all ranges and random draws", "why_tests_cant": "any number of fingers", "anchors": ["plycutter/heuristics.py: single_fingers_random (502-513)"]}
{"id": "C58", "title": "Interaction clusters are disjoint and complete", "statement": "_find_interaction_clusters returns clusters that pairwise share no joint range, and every interaction's ranges are contained in exactly one cluster.", "quantifier": "all interaction lists in any order", "why_tests_cant": "merging depends on the whole history", "anchors": ["plycutter/heuristics.py: _find_interaction_clusters (191-235)", "plycutter/sheetbuild.py: map_and, map_or"]}
{"id": "C59", "title": "canned_1 reports success only after every step and the forced check", "statement": "canned_1 returns ok=True iff creation, all twelve heuristic steps and the final forced check succeeded, in that order; with return_on_failure it returns the state of the last successful step; otherwise it raises.", "quantifier": "all outcomes of the individual steps", "why_tests_cant": "every crash point", "anchors": ["plycutter/canned.py: canned_1"]}
{"id": "C60", "title": "The command line writes output only for a fully checked result", "statement": "main() reaches write_dxf only if canned_1 returned ok=True; on any failure it raises the failing step's exception and writes nothing.", "quantifier": "all failure points", "why_tests_cant": "every crash point", "anchors": ["plycutter/command_line.py: main (86-103)", "plycutter/canned.py: canned_1 (80-83)"]}
{"id": "C61", "title": "Sheets in the DXF do not overlap", "statement": "write_dxf places the bounding boxes of the sheets left to right with a gap of exactly margin=3 between consecutive boxes and bottom edge at y=0, emits for each ring a closed polyline that is a translate of it.", "quantifier": "all numbers of sheets and all geometries", "why_tests_cant": "running offset over arbitrarily many sheets", "anchors": ["plycutter/writer.py: write_dxf"]}
{"id": "C62", "title": "An empty sheet does not disturb the other sheets", "statement": "If one sheet's geometry is empty the placement of the remaining sheets is still finite and non-overlapping.", "quantifier": "all sheet sequences containing an empty sheet", "why_tests_cant": "NaN propagates through the running offset", "anchors": ["plycutter/writer.py: write_dxf", "plycutter/geometry/aabb.py: AABB"]}
{"id": "C63", "title": "Every triangle belongs to exactly one facet record", "statement": "find_all_facets returns parallel lists of equal length whose facets partition the triangles of the mesh (given that the mesh's own facets are disjoint).", "quantifier": "all meshes", "why_tests_cant": "any number of triangles", "anchors": ["plycutter/create_sheetplex.py: find_all_facets"]}
{"id": "C64", "title": "A facet supports at most one sheet", "statement": "create_sheets consumes every facet at most once over all sheets; every facet recorded as same/opposed satisfies the normal and offset tolerances with respect to its sheet; sheet ids are distinct.", "quantifier": "all meshes", "why_tests_cant": "greedy consumption over the whole facet order", "anchors": ["plycutter/create_sheetplex.py: create_sheets, _find_facet_status"]}
{"id": "C65", "title": "Exact conversion never changes a number", "statement": "FractionFromExact returns a rational equal to its argument for int, Fraction, mpz and mpq and raises for every float; FractionFromExactOrInf additionally passes infinities through.", "quantifier": "all values of the supported types", "why_tests_cant": "all numbers", "anchors": ["plycutter/plytypes.py: FractionFromExact, FractionFromExactOrInf"]}
{"id": "C66", "title": "fstr prints rationals unambiguously", "statement": "Without approx, two different rationals are rendered differently by fstr.", "quantifier": "all rationals", "why_tests_cant": "all numbers", "anchors": ["plycutter/plytypes.py: fstr"]}
{"id": "C67", "title": "The two sides of a joint never both keep a range", "statement": "In every state canned_1 returns, no point of an intersection is chosen by one side and still ok for the other; with ok=True the ranges chosen by both sides overlap by less than 1e-7 in measure and the invariant check passed on exactly the returned state.", "quantifier": "all sheetplexes, random draws, set orders and outcomes of the steps", "why_tests_cant": "invariant over twelve steps with arbitrary many choices", "anchors": ["plycutter/canned.py: canned_1", "plycutter/heuristics.py: all steps", "plycutter/sheetbuild.py: choose_interside, unchoose_interside"]}
{"id": "C68", "title": "The random fingers leave nothing undecided", "statement": "After single_fingers_random every point that is ok for the first side of an intersection is chosen by it, and all but a set of measure below 1e-8 of what is ok for the second side is chosen by the second side.", "quantifier": "all legal states, widths and random draws (exact arithmetic)", "why_tests_cant": "any number of intersections, ranges and fingers", "anchors": ["plycutter/heuristics.py: single_fingers_random (436-513)"]}
{"id": "C69", "title": "The arrangement graph is the exact subdivision of the input", "statement": "SegmentArrangement never fails before face tracing and its edges are exactly the sub-segments into which all crossings and end points cut the input segments: each input segment is the union of edges, edges meet only in common end points, nothing else is added.", "quantifier": "all finite sets of non-degenerate segments, any set iteration order", "why_tests_cant": "arbitrarily many, overlapping and touching segments", "anchors": ["plycutter/geometry/impl2d/arrangement2d.py: SegmentArrangement.__init__, _subdivide", "plycutter/geometry/impl2d/scan2d.py: all_segment_intersections"]}
{"id": "C70", "title": "Every face of the plane is sampled", "statement": "Every point off all segments is connected, by a polygonal path that crosses no segment, to some cell's sample point or to points arbitrarily far to the right (the outer face); so deciding a Boolean combination at the sample points decides it everywhere.", "quantifier": "all segment sets and all points off the segments", "why_tests_cant": "topological: all faces of the plane", "anchors": ["plycutter/geometry/impl2d/arrangement2d.py: SegmentArrangement", "plycutter/geometry/impl2d/geom2d_simple_holes.py: _arrangement_op (166-195)"]}
{"id": "C71", "title": "No geometry operation runs forever", "statement": "|, &, -, union, union_tree and buffer terminate on all Geom2D values: none of their loops (tracing, merging, simplification, union tree) can run forever.", "quantifier": "all operands, all set iteration orders", "why_tests_cant": "termination", "anchors": ["plycutter/geometry/impl2d/geom2d_simple_holes.py: _arrangement_op, union, union_tree, buffer", "plycutter/geometry/impl2d/cell_merger.py: add_cell"]}
{"id": "C72", "title": "The result contains no material outside the slices of the model", "statement": "In every state canned_1 returns, every point strictly inside sheet_chosen of a sheet lies in slices_max of that sheet.", "quantifier": "all sheetplexes, random draws, set orders and outcomes of the steps", "why_tests_cant": "2D invariant over creation and twelve steps", "anchors": ["plycutter/canned.py: canned_1", "plycutter/sheetbuild.py: create_sheetbuild, choose_interside", "plycutter/heuristics.py: all steps"]}
{"id": "C73", "title": "Material of the result comes from the faces or from chosen fingers", "statement": "In every state canned_1 returns, sheet_chosen contains the initial area, and every other point of it lies in the finger band of a range chosen by one of the sheet's own sides; the initial area contains nothing of any joint band that was then undecided.", "quantifier": "all sheetplexes, random draws, set orders and outcomes of the steps", "why_tests_cant": "2D invariant over creation and twelve steps", "anchors": ["plycutter/canned.py: canned_1", "plycutter/sheetbuild.py: create_sheetbuild (266-268), choose_interside"]}
{"id": "C74", "title": "A sheet's faces and slices are exactly what its facets and sections give", "statement": "For every sheet create_sheets returns, faces[0]/faces[1] cover exactly the union of the projected triangles of the same/opposed facets, slices_max exactly the union of the three inner cross-sections, all of which exist.", "quantifier": "all meshes, set iteration orders and float arithmetics", "why_tests_cant": "any number of facets and triangles, plane regions", "anchors": ["plycutter/create_sheetplex.py: create_sheets (110-185)"]}
{"id": "C75", "title": "Geom2D.from_shapely keeps every coordinate exactly", "statement": "from_shapely either raises or returns one polygon per shapely polygon, whose rings have exactly the rational values of the float coordinates, without the repeated end point and positively oriented. A polygon whose rings make a valid polygon with holes is refused only if its area is negative. An infinite coordinate of the exterior raises OverflowError and a NaN ValueError, whichever comes first.", "quantifier": "all shapely polygons, multipolygons and collections", "why_tests_cant": "all coordinates", "anchors": ["plycutter/geometry/impl2d/geom2d_simple_holes.py: from_shapely, from_shapely_polygon"]}
{"id": "C76", "title": "A string as only_sheets selects nothing", "statement": "With the command line option --only_sheets (a string) create_sheets returns no sheet, whatever the string, so main raises 'No sheets found'.", "quantifier": "all strings and meshes", "why_tests_cant": "all strings", "anchors": ["plycutter/create_sheetplex.py: create_sheets (79-80, 171-173)", "plycutter/command_line.py: main"]}
{"id": "C77", "title": "No material outside the cross-sections of the mesh", "statement": "From a mesh to the result: every point strictly inside sheet_chosen of a sheet in the result of canned_1 on create_sheetplex(mesh) lies in one of the three inner cross-sections of the mesh taken for that sheet.", "quantifier": "all meshes, parameters, random draws, set orders, float arithmetics", "why_tests_cant": "the whole pipeline", "anchors": ["plycutter/create_sheetplex.py: create_sheetplex", "plycutter/canned.py: canned_1"]}
{"id": "C78", "title": "A buffer moves the boundary by at most its amount", "statement": "For g.buffer(q): every boundary point of the result is within |q| of the boundary of g; with q>0 every other point of the result is a point of g; with q<0 (no island inside a hole) every point of g further than |q| from the boundary is kept. The distance is |q| for an exact square root and 1.0003|q| for fsqrt.", "quantifier": "all Geom2D values, amounts and set orders", "why_tests_cant": "all geometries and all real points", "anchors": ["plycutter/geometry/impl2d/geom2d_simple_holes.py: buffer, _minkowski_convex_op, minkowski_ribbon_simple_convex, buffer_of_size"]}
{"id": "C79", "title": "Area grows with the region", "statement": "For geometries that cover no point twice (as all operator results do, see the next property): if every point of a lies in b then a.area() <= b.area(), strictly if b has an interior point outside a; the area is never negative, positive if there is an interior point, zero if there is none.", "quantifier": "all pairs of such Geom2D values", "why_tests_cant": "all geometries, arbitrarily many rings and vertices; regions of the plane", "anchors": ["plycutter/geometry/impl2d/geom2d_simple_holes.py: area, Simple_Polygon_With_Holes.area"]}
{"id": "C80", "title": "Results of the operators cover no point twice", "statement": "In the result of &, of | and - (of operands that do so), of union, of rectangle and of buffer, no two polygons overlap, holes lie inside their polygon and do not overlap: every point off the boundary is covered exactly once if it is inside and not at all if it is outside.", "quantifier": "all Geom2D operands, any number of them, all set iteration orders", "why_tests_cant": "winding numbers of all rings at all points", "anchors": ["plycutter/geometry/impl2d/geom2d_simple_holes.py: _arrangement_op, union, union_tree, rectangle, buffer", "plycutter/geometry/impl2d/arrangement2d.py: poly_cells", "plycutter/geometry/impl2d/cell_merger.py: add_cell"]}
{"id": "C81", "title": "Areas add up", "statement": "area(a|b) + area(a&b) = area(a) + area(b); area(a-b) + area(a&b) = area(a); the area of a union does not depend on the order or repetition of the operands nor on set iteration orders, is at least that of each operand and at most their sum, with equality if the operands do not overlap.", "quantifier": "all Geom2D operands that cover no point twice, any number of them, all set iteration orders", "why_tests_cant": "all geometries; exact rational areas", "anchors": ["plycutter/geometry/impl2d/geom2d_simple_holes.py: area, union, _arrangement_op"]}
{"id": "C82", "title": "Transforming a Geom2D by an invertible affine map", "statement": "g.transformed_with(f), with f applying an affine map M to every vertex, succeeds if det M is not 0 (also for reflections, which reverse the rings) and raises AssertionError if det M = 0 and g is not empty; the area is multiplied by |det M|, locate(M p) of the result equals locate(p) of g for every p, and a result covers no point twice if g did not.", "quantifier": "all Geom2D values and all affine maps", "why_tests_cant": "all geometries and points", "anchors": ["plycutter/geometry/impl2d/geom2d_simple_holes.py: Geom2D.transformed_with, Simple_Polygon_With_Holes.transformed_with"]}
{"id": "C83", "title": "A buffer adds or removes exactly the swept octagon", "statement": "Let a, b be |q|/fsqrt(1), |q|/fsqrt(2). With q>0, g.buffer(q) contains, off its own boundary, every point of g and every point that an octagon (vertices (+-a,0), (0,+-a), (+-b,+-b)) scaled by some t<1 reaches from the boundary of g, and contains no point outside g that the closed octagon does not reach; with q<0 it contains no point outside g or reached by such a scaled octagon, and contains every point of g the closed octagon does not reach.", "quantifier": "all amounts, set orders, and all Geom2D values whose rings are simple, pairwise properly placed and without an island in a hole", "why_tests_cant": "all geometries and all points; together with C78 both bounds of the buffer", "anchors": ["plycutter/geometry/impl2d/geom2d_simple_holes.py: buffer, _minkowski_convex_op, minkowski_ribbon_simple_convex, buffer_of_size"]}
{"id": "C84", "title": "Results have no slits and are right on the boundary too", "statement": "If no ring of the operands runs back along itself and every boundary point of an operand is a limit of inside and of outside points (true of rectangles, and of all results again), then the result r of |, &, -, union or union_tree satisfies, at every point p of the plane including points on boundaries of operands: r.locate(p) = 1 iff all points around p (off the operands' boundaries) belong to the combined set, -1 iff none of those around p do, and 0 iff arbitrarily close to p there are both.", "quantifier": "all such Geom2D operands, any number of them, all set iteration orders, all points", "why_tests_cant": "all geometries, all points of the plane; limits", "anchors": ["plycutter/geometry/impl2d/geom2d_simple_holes.py: _arrangement_op, __or__, __and__, __sub__, union, union_tree, locate", "plycutter/geometry/impl2d/arrangement2d.py: poly_cells", "plycutter/geometry/impl2d/cell_merger.py: add_cell"]}
{"id": "C85", "title": "Boolean laws of the operators", "statement": "For any two expressions built from |, &, - and union over the same Geom2D values: if they have the same truth table, their results answer locate(p) equally at every point (so |, & are commutative, associative, idempotent, distribute, a-(b|c) equals (a-b)-c, the order of set iteration and of the operands of union does not matter, and so on); if the truth table of one implies the other's, locate of the first is nowhere greater.", "quantifier": "all expressions, all slit-free Geom2D values, all set iteration orders, all points", "why_tests_cant": "expressions of any depth and number of variables; all points of the plane", "anchors": ["plycutter/geometry/impl2d/geom2d_simple_holes.py: __or__, __and__, __sub__, union, union_tree, locate"]}
{"id": "C86", "title": "is_empty is exact", "statement": "A slit-free Geom2D is_empty() iff locate is -1 at every point; (a & b).is_empty() iff no point is inside both; (a - b).is_empty() iff every point inside a is inside b.", "quantifier": "all slit-free Geom2D values, all set iteration orders", "why_tests_cant": "all geometries and all points; this is the test sheetbuild and heuristics use for disjointness", "anchors": ["plycutter/geometry/impl2d/geom2d_simple_holes.py: is_empty, __and__, __sub__", "plycutter/sheetbuild.py:81,182,223", "plycutter/heuristics.py:76,165"]}
{"id": "C87", "title": "Operators on slit-free operands stop at nothing but their own assertions", "statement": "If no ring of the operands runs back along itself, SegmentArrangement of their edges is always built (no dangling vertex, no cell without container, no failed assertion), its sample points lie off all edges, and |, &, -, union and union_tree either return the Geom2D or raise AssertionError, in the merging of cells or in the final check, never another exception. They return exactly if merging succeeds and every sample point is classified right. (The assertion does fail for some set orders: there are three polygons with simple outlines for which a | (b | c) succeeds or raises with the iteration order of a set.)", "quantifier": "all such Geom2D operands, any number of them, all set iteration orders", "why_tests_cant": "all geometries, all orders; all executions", "anchors": ["plycutter/geometry/impl2d/geom2d_simple_holes.py: _arrangement_op, __or__, __and__, __sub__, union, union_tree", "plycutter/geometry/impl2d/arrangement2d.py: SegmentArrangement, find_containers, poly_cells", "plycutter/geometry/impl2d/cell_merger.py"]}
{"id": "C88", "title": "locate on a simple polygon is the inside and the outside", "statement": "If the vertices of a ring are distinct and its edges meet only in common end points, locate_point_polygon_winding_number gives two points off the ring the same answer iff a polygonal path joins them without meeting the ring (the Jordan curve theorem for polygons); both answers occur arbitrarily close to every point of the ring, far away in any direction the answer is -1, the area is not 0, and the winding number of inside points is -1 or 1 by the sign of the area.", "quantifier": "all simple polygons, all points", "why_tests_cant": "rings of any length, all points, paths of any length", "anchors": ["plycutter/geometry/impl2d/primitive2d.py: locate_point_polygon_winding_number, polygon_area"]}
{"id": "C89", "title": "Geom2D.polygon of a simple outline", "statement": "For a simple outline, Geom2D.polygon(points, reorient=True) succeeds in either direction of travel (with the default reorient=False only clockwise, and raises AssertionError otherwise), has the area of the outline, its locate is that of the outline, and the result has no slits, its ring goes around every point at most once and never turns back, so that the properties on operators (C84-C87) and on buffers (C83) apply to everything built from such polygons.", "quantifier": "all simple outlines, both directions, all points", "why_tests_cant": "outlines of any length", "anchors": ["plycutter/geometry/impl2d/geom2d_simple_holes.py: Geom2D.polygon, Simple_Polygon_With_Holes"]}
{"id": "C90", "title": "choose_the_ok_side takes what only one side may take", "statement": "After heuristics.choose_the_ok_side, the intervals longer than 1/50 that were ok for one side of a joint and for no other are chosen for that side, the shorter ones are no longer ok for it, and apart from this no range chosen or ok changes; in particular every point is then either ok for both sides, or for none, or chosen for the side it is ok for.", "quantifier": "all sheetbuilds reachable by the operations, all joints, all points", "why_tests_cant": "any number of sheets and joints, all points", "anchors": ["plycutter/heuristics.py: choose_the_ok_side"]}
{"id": "C91", "title": "Interacting joints are settled", "statement": "After heuristics.heuristic_multi_inter_single_decisions: wherever the possible fingers of two joints of one sheet overlapped, one sheet gets the overlapping ranges of both joints; every other sheet gives these ranges up (they are no longer ok for its sides) and what is ok there for the winner is chosen. This still holds in the final result of canned_1 with ok=True.", "quantifier": "all sheetbuilds reachable by the operations, all set orders; all executions", "why_tests_cant": "any number of sheets and joints, all points", "anchors": ["plycutter/heuristics.py: _find_interactions, _find_interaction_clusters, heuristic_multi_inter_single_decisions", "plycutter/canned.py: canned_1"]}
{"id": "C92", "title": "canned_1's history is the log of its steps", "statement": "When canned_1 succeeds, its history is: the new sheetbuild (twice), the sheetbuild after each of the twelve steps in the fixed order, each the result of applying the step to the entry before; the sheetbuild returned is the last entry.", "quantifier": "all sheetplexes, parameters; all executions", "why_tests_cant": "all runs", "anchors": ["plycutter/canned.py: canned_1"]}
{"id": "C93", "title": "No joint range is left open", "statement": "In a result of canned_1 with ok=True (exact arithmetic), up to the tolerance of choose_interside, each point of a joint that was ok for some side before choose_the_ok_side is chosen for a side for which it was ok, except those in one-sided pieces of length at most 1/50, which are scrapped; nothing that remains ok is unchosen.", "quantifier": "all sheetplexes, parameters, random streams; all executions", "why_tests_cant": "any number of sheets and joints, all points", "anchors": ["plycutter/canned.py: canned_1", "plycutter/heuristics.py: choose_the_ok_side, single_fingers_random"]}
{"id": "C94", "title": "A cluster goes to the sheet with the largest finger", "statement": "When heuristic_multi_inter_single_decisions decides a cluster of interacting ranges, the sheet that gets it is one whose offered finger area (the area of the union of its fingers on the parts of these ranges that are ok for its sides) is at least that of every other sheet with a side in the cluster.", "quantifier": "all sheetbuilds reachable by the operations, all clusters, all set orders", "why_tests_cant": "clusters of any size, any number of sheets", "anchors": ["plycutter/heuristics.py: heuristic_multi_inter_single_decisions"]}
{"id": "C95", "title": "Buffers have no slits", "statement": "Geom2D.buffer of a slit-free geometry is slit-free; with a non-zero amount this holds for every geometry whose rings never turn back on themselves (whether or not two of them share an edge), so the result of a buffer can be used wherever the properties on operators (C84-C87) ask for slit-free operands.", "quantifier": "all geometries, amounts, set orders", "why_tests_cant": "any number of polygons and holes, outlines of any length", "anchors": ["plycutter/geometry/impl2d/geom2d_simple_holes.py: Geom2D.buffer, _minkowski_convex"]}
{"id": "C96", "title": "Buffers at every point", "statement": "For a geometry with simple rings, none inside a hole of another polygon, and a positive amount: locate of the buffered geometry is 1 at every point inside or on the boundary of the geometry and at every point nearer than the amount (in the norm of the code's octagon) to it, and -1 at every point outside the geometry farther than the amount, with no exceptional points; for a negative amount the mirror image holds (-1 outside, on the boundary and at every point near it, 1 at the inner points farther than the amount).", "quantifier": "all such geometries, amounts, set orders, points", "why_tests_cant": "all points of the plane, any number of polygons and holes", "anchors": ["plycutter/geometry/impl2d/geom2d_simple_holes.py: Geom2D.buffer, Geom2D.locate"]}
{"id": "C97", "title": "The sheets of a run have no slits", "statement": "When no ring of the sheets of a sheetplex turns back along itself, every sheet_chosen and sheet_ok geometry of the result of canned_1 (successful or not), and of every state reached from create_sheetbuild by choose_interside, unchoose_interside and unchoose_sheet_area (with such areas), is slit-free: each of its boundary points is a limit of inner and of outer points.", "quantifier": "all sheetplexes, parameters, random streams, histories of operations; all executions", "why_tests_cant": "any number of sheets, joints, operations", "anchors": ["plycutter/canned.py: canned_1", "plycutter/sheetbuild.py: SheetBuild", "plycutter/heuristics.py"]}
{"id": "C98", "title": "Runs at every point", "statement": "For such sheetplexes, at every point without exception: locate of a sheet of the result of canned_1 is at most locate of the sheet's slices (if these are slit-free); it is at least locate of the sheet as create_sheetbuild left it, and where it is larger the point lies in or on a finger that a joint of that sheet has chosen; along a history of operations locate of sheet_chosen never drops, locate of sheet_ok never rises, and a point outside sheet_chosen only gets in when it was inside or on sheet_ok.", "quantifier": "all sheetplexes, parameters, random streams, histories of operations; all executions", "why_tests_cant": "all points of the plane", "anchors": ["plycutter/canned.py: canned_1", "plycutter/sheetbuild.py: SheetBuild"]}
{"id": "C99", "title": "The area of fingers", "statement": "make_fingers(where, f0, f1).area() is the total length of where, times the distance between the normal coordinates that f0 and f1 select, times the squared length of the joint's direction (1 for a unit direction): the fingers of a range do not overlap and none is lost.", "quantifier": "all intersides, ranges, fractions, set orders", "why_tests_cant": "any number of intervals", "anchors": ["plycutter/sheetplex.py: InterSide.make_fingers", "plycutter/geometry/impl2d/geom2d_simple_holes.py: Geom2D.area"]}
{"id": "C100", "title": "The sides of a joint leave each other room", "statement": "In a result of canned_1 with ok=True, the material of a sheet inside the fingers (on this sheet) of the ranges that the other side of a joint has chosen has an area below 1/1000 plus that of fingers of total length 1e-7: what one sheet puts through the joint is free of the other one's material, up to this tolerance.", "quantifier": "all sheetplexes, parameters, random streams; all executions", "why_tests_cant": "any number of sheets and joints", "anchors": ["plycutter/canned.py: canned_1", "plycutter/sheetbuild.py: SheetBuild._check"]}
{"id": "C101", "title": "Loose pieces of a sheet are removed", "statement": "remove_loose changes sheet_ok only. Off finitely many segments a place stays ok on a sheet iff it was ok and every polygon of what is chosen or ok there that contains it has a point in common with both faces of the sheet. For slit-free states locate of sheet_ok is unchanged at every point that a polygonal path inside what is chosen or ok joins to a point of both faces, and the new state is slit-free.", "quantifier": "all made sheetplexes, states, set orders; all executions", "why_tests_cant": "any number of sheets and polygons, all points, all paths", "anchors": ["plycutter/heuristics.py: remove_loose"]}
{"id": "C102", "title": "Projection to 1D is the shadow", "statement": "For a slit-free geometry and a non-zero direction, a position y is in project_to_1d(vec, offs) iff for every e > 0 there is a point inside the geometry whose coordinate along the direction, plus offs, is in [y, y + e).", "quantifier": "all slit-free geometries, directions, offsets, positions", "why_tests_cant": "any number of polygons and holes", "anchors": ["plycutter/geometry/impl2d/geom2d_simple_holes.py: Geom2D.project_to_1d"]}
{"id": "C103", "title": "Ranges of a joint stay ok where the sheet supports them", "statement": "update_intersection_ok changes intersection_ok only. For a slit-free state and a side with a unit direction, a position x stays ok iff it was ok and over or right after every position within 1/1000 of x there are points of the side's finger band that are inside what is ok on its sheet.", "quantifier": "all made sheetplexes, legal states, set orders; all executions", "why_tests_cant": "any number of joints and intervals, all positions", "anchors": ["plycutter/heuristics.py: update_intersection_ok", "plycutter/sheetplex.py: InterSide.project_to_1d"]}
{"id": "C104", "title": "update_sheet_ok takes away only what the other side may need", "statement": "update_sheet_ok changes sheet_ok only, nothing becomes ok, and the state stays slit-free. A point inside what was ok on a sheet and no longer inside is not inside what is chosen, and within sqrt(K)/500 of it (K a constant of the float roots, 1.0003) there is a point of the closed finger band over positions ok for some side of the sheet or its opposite that is strictly inside no finger band over positions ok for a side of the sheet.", "quantifier": "all made sheetplexes, legal slit-free states, set orders; all executions", "why_tests_cant": "any number of sheets and joints, all points", "anchors": ["plycutter/heuristics.py: update_sheet_ok"]}
{"id": "C105", "title": "choose_obviously_irrelevant gives up only shared positions", "statement": "choose_obviously_irrelevant changes intersection_ok only; a position that is ok for a side but not for the opposite side stays ok. A position ok for both is kept only if over or right after it there are points inside the sheet's slices within sqrt(K)/100 of the side's finger band lengthened by 1/100. Conversely it is kept if right after it there are such points that the octagon of radius 1/100 reaches from the boundary of the fingers and one slightly larger than that of radius 1/1000 does not.", "quantifier": "all made sheetplexes, legal states, set orders; all executions", "why_tests_cant": "any number of joints and intervals, all positions", "anchors": ["plycutter/heuristics.py: choose_obviously_irrelevant"]}
{"id": "C106", "title": "Cut lines of results meet in end points only and separate material from waste", "statement": "Call a geometry cuttable if a point strictly between the ends of one of its edges lies on no other edge (of the same or another ring), and directly beside every edge there is material on one side and waste on the other (material to the right of outer rings, to the left of holes). polygon of a simple outline, & of geometries whose rings do not turn back, buffer by a nonzero amount of such geometries, and |, -, union and buffer of cuttable geometries are cuttable whenever they return; cuttable geometries are slit-free.", "quantifier": "all geometries, set orders, buffer amounts; all executions that return", "why_tests_cant": "any number of polygons, holes and vertices", "anchors": ["plycutter/geometry/impl2d/geom2d_simple_holes.py: Geom2D.__and__", "plycutter/geometry/impl2d/geom2d_simple_holes.py: Geom2D.__or__", "plycutter/geometry/impl2d/geom2d_simple_holes.py: Geom2D.__sub__", "plycutter/geometry/impl2d/geom2d_simple_holes.py: Geom2D.union", "plycutter/geometry/impl2d/geom2d_simple_holes.py: Geom2D.buffer", "plycutter/geometry/impl2d/geom2d_simple_holes.py: Geom2D.polygon"]}
{"id": "C107", "title": "The sheets of a run can be cut", "statement": "Every geometry in sheet_chosen and sheet_ok of the state canned_1 returns is cuttable: no two of its lines cross, overlap or form a T, and each separates material from waste.", "quantifier": "all made sheetplexes whose rings do not turn back, parameters, random choices and set orders; all executions, failed ones with return_on_failure included", "why_tests_cant": "any number of sheets and joints", "anchors": ["plycutter/canned.py: canned_1", "plycutter/heuristics.py"]}
{"id": "C108", "title": "No two lines of the DXF drawing cross", "statement": "If every sheet given to write_dxf is cuttable and not empty, all coordinates drawn are finite and a point strictly between the ends of a drawn segment lies on no other segment of the drawing, of the same polyline, the same sheet or any other. This holds of what the command line tool writes, after the final dilation, if no sheet is drawn empty.", "quantifier": "all made sheetplexes whose rings do not turn back, radii, dilations, random choices and set orders; all executions", "why_tests_cant": "any number of sheets, polygons, holes and vertices", "anchors": ["plycutter/writer.py: write_dxf", "plycutter/command_line.py: main"]}
{"id": "C109", "title": "The faces of the sheets made from a mesh can be cut", "statement": "The two faces of every sheet create_sheets returns are cuttable (C106): the triangles of any number of facets, overlapping or touching, are joined into rings that never cross and separate material from waste. If the rings of the sections do not turn back along themselves, neither do those of slices_max.", "quantifier": "all meshes, float results, sections, set orders, options; all executions that return", "why_tests_cant": "any number of facets and triangles", "anchors": ["plycutter/create_sheetplex.py: create_sheets"]}
{"id": "C110", "title": "No two lines of the drawing made from a mesh cross", "statement": "What the command line tool writes for a mesh has finite coordinates, and a point strictly between the ends of a drawn segment lies on no other segment of the drawing, if no sheet is drawn empty and the rings of the mesh's sections do not turn back along themselves.", "quantifier": "all meshes, float results, sections, radii, dilations, random choices and set orders; all executions", "why_tests_cant": "any number of sheets, polygons, holes and vertices", "anchors": ["plycutter/command_line.py: main", "plycutter/create_sheetplex.py: create_sheetplex", "plycutter/writer.py: write_dxf"]}
{"id": "C111", "title": "Every point of a result lies in or on a section of the mesh", "statement": "For every sheet of the state canned_1 returns for a mesh, every point inside or on the boundary of what is chosen is inside or on the boundary of one of the three sections the sheet was made from.", "quantifier": "all meshes, float results, sections whose rings do not turn back, parameters, random choices and set orders; all executions", "why_tests_cant": "any number of sheets, all points of the plane", "anchors": ["plycutter/create_sheetplex.py: create_sheets", "plycutter/canned.py: canned_1"]}
{"id": "C112", "title": "Both sheets of a joint measure the same coordinate along it", "statement": "For two sheets in space whose normals are not parallel create_intersections makes a joint, and only then (the length of the cross product is at least 1e-4). Its direction is the unit vector perpendicular to both normals, on both sheets, and for every point of space the coordinate along the joint of its place on the one sheet equals that of its place on the other.", "quantifier": "all sets of sheets in space, with exact arithmetic; all points of space", "why_tests_cant": "any number of sheets at any angles", "anchors": ["plycutter/create_sheetplex.py: create_intersection, create_inter_side", "plycutter/sheetplex.py: Sheet.project_point4"]}
{"id": "C113", "title": "The band of a joint is where the other sheet passes through", "statement": "min and max of an InterSide differ, and a place of the sheet lies strictly between them (or in between, ends included) exactly if some point of space strictly inside (inside or on the faces of) both sheets lies over it. The planes of a sheet made from a facet are the plane of the facet and the parallel one a thickness behind it.", "quantifier": "all sets of sheets in space, with exact arithmetic; all points of space", "why_tests_cant": "any angle between two sheets, any position of the corners", "anchors": ["plycutter/create_sheetplex.py: create_sheets, create_intersection, create_inter_side", "plycutter/sheetplex.py: Sheet.midplane"]}
{"id": "C114", "title": "A finger is the part of the crossing over its range", "statement": "make_fingers(w) on a side of a joint contains the place of every point of space strictly inside both sheets whose coordinate along the joint is inside w. A point off its outline is inside it exactly if it is the place of such a point, the coordinate measured on the other sheet.", "quantifier": "all sets of sheets in space, sets of ranges and set orders, with exact arithmetic", "why_tests_cant": "any angle, any number of ranges", "anchors": ["plycutter/sheetplex.py: InterSide.make_fingers", "plycutter/create_sheetplex.py: create_inter_side"]}
{"id": "C115", "title": "What a new state has chosen lies within what is allowed", "statement": "In the state create_sheetbuild returns for a support_radius above 1, every point inside a sheet's sheet_chosen is inside its sheet_ok, and every point on the boundary of sheet_chosen is inside or on the boundary of sheet_ok.", "quantifier": "all made sheetplexes whose rings do not turn back and whose faces are simple polygons without islands, radii above 1, set orders; all executions", "why_tests_cant": "any number of sheets, all points of the plane", "anchors": ["plycutter/sheetbuild.py: create_sheetbuild", "plycutter/geometry/impl2d/geom2d_simple_holes.py: Geom2D.buffer"]}
{"id": "C116", "title": "The sheets of a new state do not collide", "statement": "For sheets in space, no point of space strictly inside the slabs of two sheets and less than 1000 along their joint from its origin is material of both sheets in the state create_sheetbuild returns. Farther away the property is false: such sheets share a corner.", "quantifier": "all sets of sheets in space with exact arithmetic, radii above 1, set orders; all points of space", "why_tests_cant": "any number of sheets at any angles", "anchors": ["plycutter/sheetbuild.py: create_sheetbuild", "plycutter/create_sheetplex.py: create_intersections"]}
{"id": "C117", "title": "Where the sheets of a result can collide", "statement": "In a result of canned_1 with ok True, a point of space that is material of both sheets of a joint (less than 1000 from its origin) lies on a chosen finger of a joint of one of the two with a third sheet, or in the part of one sheet over a chosen finger of the other, an area below 1e-3 + 1e-7 times the width of the band.", "quantifier": "all sets of sheets in space with exact arithmetic, parameters, random choices and set orders; all executions", "why_tests_cant": "any number of sheets and joints, all points of space", "anchors": ["plycutter/canned.py: canned_1", "plycutter/heuristics.py", "plycutter/sheetbuild.py: check"]}
{"id": "C118", "title": "The interactions on record are the overlaps", "statement": "heuristics._find_interactions records an interaction exactly for every two sides of a sheet whose possible fingers overlap: once under the joint of each of the two, with the range of the overlap along either side belonging to that side.", "quantifier": "all sheetbuilds, set orders; all executions", "why_tests_cant": "any number of sheets and joints", "anchors": ["plycutter/heuristics.py: _find_interactions"]}
{"id": "C119", "title": "What deciding interacting joints changes", "statement": "When a cluster is decided, one sheet chooses what is ok for its sides within the ranges of the cluster, all other sheets give these ranges up, and no other range changes. The cluster first grows at most by one interval, on one side of that sheet: a longest one of those ok for it within 3.2 of the cluster's range and outside it, not shorter than 3/2. So heuristic_multi_inter_single_decisions changes a joint only within 3.2 of an overlap of its possible fingers with those of another joint.", "quantifier": "all made sheetplexes, sheetbuilds reachable by the operations, set orders; all executions", "why_tests_cant": "any number of sheets, joints and clusters, all positions", "anchors": ["plycutter/heuristics.py: heuristic_multi_inter_single_decisions, _find_interaction_clusters"]}
{"id": "C120", "title": "Chosen fingers are complete", "statement": "In a run of canned_1 that ends with ok=True, take any sheetbuild of the history before the last step. A place strictly inside the band of a joint, at a position strictly inside the range chosen for a sheet, and inside what sheet_ok allows for that sheet, is inside sheet_chosen of that sheet: no part of a chosen finger is forgotten. The last step changes neither sheet_chosen nor the chosen ranges. So in the assembled object the part of the crossing of two plates that has a chosen coordinate and was allowed until the last step is material.", "quantifier": "all made sheetplexes, support radii, seeds, finger widths, set orders; all states of the run", "why_tests_cant": "any number of sheets and joints, all points", "anchors": ["plycutter/heuristics.py: heuristic_multi_inter_single_decisions, choose_the_ok_side, single_fingers_random", "plycutter/sheetbuild.py: SheetBuild.choose_interside", "plycutter/canned.py: canned_1"]}
{"id": "C121", "title": "The sheets of a mesh are plates in space, and their faces are shadows of its triangles", "statement": "For a mesh with unit normals create_sheetplex makes sheets whose slab is the plane of a facet of the mesh and the parallel one a thickness behind it, so C112 to C117 and C120 hold of sheetplexes made from a mesh. Its slices are the sections offset_tolerance inside either plane and halfway between them. A point of the plane is inside or on the boundary of a sheet's first (second) face exactly if it is the place of a point of a triangle of one of the facets found to lie in its plane (opposite to it).", "quantifier": "all meshes with rational coordinates and unit normals, sections, orders and tolerances; all points", "why_tests_cant": "any mesh", "anchors": ["plycutter/create_sheetplex.py: create_sheetplex, create_sheets, find_all_facets"]}
{"id": "C122", "title": "The material of a face is near the plate's face", "statement": "Every point of a triangle that contributes to a face of a sheet is within normal_tolerance times its distance from the origin, plus the unevenness of its facet, plus offset_tolerance, of the corresponding side of the plate.", "quantifier": "all meshes with rational coordinates and unit normals, sections, orders and tolerances; all points", "why_tests_cant": "any mesh, any tolerance", "anchors": ["plycutter/create_sheetplex.py: create_sheets, _find_facet_status, _facet_plane"]}
{"id": "C123", "title": "The crossing of two plates has no gap that is still allowed", "statement": "With exact arithmetic and 0 < min_width <= max_width, in a run of canned_1 that ends with ok=True: take a point inside both plates of a joint, at a coordinate that was allowed for one of the two sheets before choose_the_ok_side. Except for coordinates of a total length below 1e-8 and finitely many finger ends, either the coordinate belongs to a one-sided piece too short to be used, or it is inside a range chosen for one of the two sheets, and the point is material of that sheet unless sheet_ok before the last step forbids it there.", "quantifier": "all sheetplexes in space, support radii, seeds, finger widths, set orders; all points of the crossings", "why_tests_cant": "any number of sheets and joints, all points", "anchors": ["plycutter/heuristics.py: choose_the_ok_side, single_fingers_random", "plycutter/sheetbuild.py: SheetBuild.choose_interside", "plycutter/canned.py: canned_1"]}
{"id": "C124", "title": "Fast and slow ray queries agree and give exactly the hits", "statement": "For an arrangement of at least one segment, a point p in its bounding box and the general direction v or -v, ray_halfedge_query_general_ray (segment tree) and ray_halfedge_query_general_ray_slow (every half-edge) return the same list, with keep_all and without. It is sorted by t, names each half-edge at most once, and contains (t, e) exactly if p + t v lies on e (keep_all), or lies strictly inside e, is the start of an e clockwise from v, or the end of an e counter-clockwise from v (otherwise). For p outside the box the fast query may raise AssertionError where the slow one answers.", "quantifier": "all arrangements, points of the box, both directions and modes", "why_tests_cant": "any number of segments", "anchors": ["plycutter/geometry/impl2d/arrangement2d.py: ray_halfedge_query_the_general_ray, ray_halfedge_query_general_ray, ray_halfedge_query_general_ray_slow, _ray_halfedge_test"]}
{"id": "C125", "title": "Away from the joints nothing is lost", "statement": "In every run of canned_1, successful or not, a point strictly inside both faces and strictly inside the slices of a sheet, with no other plate of a joint above or below it within the sheet, is material of that sheet in the result, if the common part of the two faces has no piece lying in a hole of another piece. Without that condition it is false: create_sheetbuild drops a supported piece lying in a hole of the support, and no later step brings it back.", "quantifier": "all sheetplexes (in space for the version with plates), support radii, seeds, finger widths, set orders; all points", "why_tests_cant": "any number of sheets and joints", "anchors": ["plycutter/sheetbuild.py: create_sheetbuild", "plycutter/canned.py: canned_1"]}
{"id": "C126", "title": "The assembled object stays over the body", "statement": "Suppose the sections of the mesh are cuts of a solid. In every run of canned_1 on the sheetplex of a mesh, successful or not, take a point x of space within a plate whose footprint is material (or on the boundary) of the resulting sheet. Then there is a point y of the solid within the same plate with y = x + t n, n the normal of the sheet and |t| at most the thickness.", "quantifier": "all meshes with rational coordinates and unit normals, solids, sections, support radii, seeds, finger widths, orders; all points", "why_tests_cant": "any mesh, any number of sheets", "anchors": ["plycutter/create_sheetplex.py: create_sheetplex, create_sheets", "plycutter/canned.py: canned_1"]}
{"id": "C127", "title": "Joints of the sheets of a mesh, in the coordinates of the mesh", "statement": "For the sheetplex of a mesh, with plates given by the offsets and normals of its sheets: material away from all other plates is never lost; in a successful run common material of two crossing plates is on a finger of a third joint or on a strip of almost no area (within 1000 of the joint's origin, support radius > 1); and a successful run leaves no gap between two crossing plates at a coordinate that was still allowed, up to lengths below 1e-8, finger ends and one-sided pieces too short to be used.", "quantifier": "all meshes with rational coordinates and unit normals, sections, seeds, finger widths, orders; all points", "why_tests_cant": "any mesh, any number of sheets", "anchors": ["plycutter/create_sheetplex.py: create_sheetplex", "plycutter/sheetbuild.py: create_sheetbuild", "plycutter/canned.py: canned_1"]}
{"id": "C128", "title": "A run fails in only a few ways", "statement": "With exact support radius and final dilation: canned_1 with return_on_failure False raises only AssertionError, TypeError (a failed check, see C134), ZeroDivisionError (only if a finger width is 0), or AttributeError or Exception, the latter two only from heuristic_multi_inter_single_decisions. With return_on_failure True it raises only UnboundLocalError, exactly if create_sheetbuild raised AssertionError. main, given the sheetplex, raises only Exception (no sheets), KeyError (canned_1 failed) or AssertionError (a dilation failed). No lookup fails and no loop runs out of its bound.", "quantifier": "all sheetplexes, support radii, finger widths, set orders; seeds and finger counts that numpy accepts", "why_tests_cant": "any number of sheets and joints", "anchors": ["plycutter/canned.py: canned_1", "plycutter/command_line.py: main", "plycutter/heuristics.py: all", "plycutter/sheetbuild.py: create_sheetbuild"]}
{"id": "C129", "title": "Reading a mesh fails in only a few ways", "statement": "create_sheetplex raises only AssertionError, or what Geom2D.from_shapely raises on one of the sections; no index is out of range, no reduce is empty. main on a mesh raises that, or Exception if there are no sheets, KeyError if the run failed, AssertionError if the final dilation failed.", "quantifier": "all meshes with matching facet arrays, numpy and trimesh functions returning lists of the right length, sections whose rings do not turn back along themselves; all orders and run parameters", "why_tests_cant": "any mesh", "anchors": ["plycutter/create_sheetplex.py: create_sheets", "plycutter/create_sheetplex.py: create_sheetplex", "plycutter/command_line.py: main"]}
{"id": "C130", "title": "Why the cluster step raises something other than an assertion", "statement": "If a run with return_on_failure=False raises something other than a failed assertion (AssertionError, or TypeError for a check) or the ZeroDivisionError of a finger width 0, then heuristic_multi_inter_single_decisions raised it on a state on which no interside is chosen, while deciding a cluster. Either it is Exception, and for some sheet of the cluster no side has an interval of length 3/2 or more that is ok, outside the cluster and at most 3.2 away from it. Or it is AttributeError, and the extra connection given to a cluster decided before covers a point of the range of this cluster on the same joint. Both happen on states that pass check().", "quantifier": "all sheetplexes whose rings do not turn back along themselves, all random choices, set and dict orders, support radii", "why_tests_cant": "any run", "anchors": ["plycutter/heuristics.py: heuristic_multi_inter_single_decisions", "plycutter/sheetbuild.py: SheetBuild.unchoose_interside", "plycutter/canned.py: canned_1"]}
{"id": "C131", "title": "Which sheet takes a cluster", "statement": "The cluster step gives a cluster to one sheet C among those that have a side on a joint of the cluster: what C offers (the union of the fingers of its sides on the cluster) has the largest area, and C is the first of these in the order of the set. The cluster is enlarged by an extra connection exactly when the material C offers, grown by 1/5, meets what is chosen of C in an area of at most 3/5. C chooses the cluster where its sides are ok, every other sheet gives it up, and nothing else changes.", "quantifier": "all legal states, clusters, set and dict orders", "why_tests_cant": "any cluster", "anchors": ["plycutter/heuristics.py: heuristic_multi_inter_single_decisions"]}
{"id": "C132", "title": "Which side gets the fingers of a range", "statement": "single_fingers_random looks at what the two sides have chosen within 2 before and after a range. With L the length of the range, a number n fits if min_width*n <= L <= max_width*n and n is odd when the same side has more at both ends (side 0 on a tie), even otherwise. If no number fits, side 0 gets the whole range. Otherwise the range is cut into n fingers, lo <= n <= hi for the least and largest number that fits, of widths within min_width..max_width; they alternate, the first being for the side that has less before the range. Nothing else is chosen on the two sides.", "quantifier": "all legal states, ranges, widths and random draws (exact arithmetic)", "why_tests_cant": "any range", "anchors": ["plycutter/heuristics.py: single_fingers_random"]}
{"id": "C133", "title": "What the drawing shows", "statement": "to_mpatch of a Geom2D without polygons is None; otherwise it gives a path of closed strokes, one per outer ring and one per hole, whose winding numbers add up to -1 at every point inside the Geom2D and to 0 at every point outside, off its boundary. The Geom2D is assumed flat (its polygons do not overlap), as all results of the set operations are. show_sheet adds, in this order, green the sheet's ok area, cyan its chosen area, and for each side of the sheet red the fingers of what is chosen between the fractions 4/10 and 6/10 of the width and blue those of what is ok between 3/10 and 7/10; nothing is added for an empty one.", "quantifier": "all Geom2D, all legal states", "why_tests_cant": "any number of polygons, holes and sides", "anchors": ["plycutter/geometry/geom2dbase.py: to_mpatch", "plycutter/geometry/geom2dbase.py: show2d", "plycutter/sheetbuild.py: show_sheet"]}
{"id": "C134", "title": "What a failing check raises", "statement": "On every state of a run, _check raises AssertionError, except where the chosen ranges of a side are ok and not ok on the other side, but what is chosen of its sheet meets the fingers of what the other side may still take in an area of 0.001 or more: there it raises TypeError, because the message of that assertion cannot be made (fastr of a Geom1D with an interval). Such a joint raises TypeError on any state on which the two assertions before pass.", "quantifier": "all states, joints and orders of sets", "why_tests_cant": "any number of joints", "anchors": ["plycutter/sheetbuild.py: SheetBuild._check", "plycutter/geometry/geom1d.py: Geom1D.__fstr__", "plycutter/plytypes.py: fastr"]}
{"id": "C135", "title": "The random fingers in floating-point arithmetic", "statement": "If every rounding and every draw of random_min_max is off by at most d (for numbers up to M), then whatever it returns is n consecutive intervals from 0 to within (2n+2)d of the total, each of length between mn-2d and mx+2d, and its last assertion (432) never fails while (2n+3)d < 1e-8. For float64 d may be 2^-52 M.", "quantifier": "all roundings and generators within the error bound, all n, widths and totals", "why_tests_cant": "any number of fingers", "anchors": ["plycutter/heuristics.py: random_min_max (403-433)"]}
{"id": "C136", "title": "A feasible division into fingers never fails", "statement": "If mn*n <= total <= mx*n then random_min_max does not raise, also in float64 arithmetic.", "quantifier": "all n, widths, totals, seeds", "why_tests_cant": "any number of fingers", "anchors": ["plycutter/heuristics.py: random_min_max (419)", "plycutter/heuristics.py: single_fingers_random (472-500)"]}
{"id": "C137", "title": "Random fingers leave only slivers open in floating-point arithmetic", "statement": "If every rounding and every draw is off by at most d, 2d < min width, and no open stretch is longer than N minimal fingers, then after single_fingers_random everything still undecided on the first side of a joint lies in the last (2N+2)d of one of the stretches that were open, so no undecided stretch is longer than (2N+2)d; the second side has in addition at most a set of length below 1e-8. float64 satisfies the premise with d = 2^-52 M.", "quantifier": "all builds, roundings and generators within the error bound, all widths", "why_tests_cant": "any number of joints, ranges and fingers", "anchors": ["plycutter/heuristics.py: single_fingers_random (436-516)", "plycutter/heuristics.py: random_min_max (403-433)"]}
{"id": "C138", "title": "A successful run settles the joints up to rounding", "statement": "If every rounding and draw is off by at most d, 2d < min width, and no stretch allowed to a side at the start is longer than N minimal fingers, then in a result with ok=True everything that is still allowed to a side is chosen, except on a set of length below 1e-8 and within (2N+2)d before finitely many ends of stretches that were open before single_fingers_random. Every point of the crossing of two plates that was allowed before choose_the_ok_side is settled with the same exceptions.", "quantifier": "all sheetplexes, roundings and generators within the error bound, all widths, dict orders", "why_tests_cant": "any number of sheets, joints, ranges and fingers", "anchors": ["plycutter/canned.py: canned_1", "plycutter/heuristics.py: single_fingers_random (436-516)", "plycutter/heuristics.py: choose_the_ok_side"]}
{"id": "C139", "title": "fstr and fastr give a string for every object", "statement": "fstr(*objs, approx) and fastr(*objs) return a string for all nested tuples, lists, sets, dicts of rationals, Geom1D values and other objects; fstr is the exact form of C66 on exact objects, fastr shows integers alike, repr(Geom1D) works.", "quantifier": "all nested objects, both values of approx, any float() and str()", "why_tests_cant": "nesting of any depth", "anchors": ["plycutter/plytypes.py: fstr, fastr (75-108)", "plycutter/geometry/geom1d.py: __repr__, __fstr__ (119-126)"]}
{"id": "C140", "title": "A minimal finger width above the maximal one gives no fingers", "statement": "If the maximal width is positive and the minimal one is above it or negative, single_fingers_random never fails on that account: whenever it returns, the first side of every joint has chosen everything that was open for it and the second side nothing new, and the result does not depend on the random seed.", "quantifier": "all builds, generators, roundings and such widths", "why_tests_cant": "any number of joints and ranges", "anchors": ["plycutter/heuristics.py: single_fingers_random (470-490)", "plycutter/command_line.py: --min_finger_width, --max_finger_width (45-48)"]}
{"id": "C141", "title": "The operations on maps of geoms", "statement": "map_or_geom unions a geom into one key (a missing key counts as empty) and leaves the others alone; map_and_geom and map_sub_geom intersect or subtract at one key, keep all keys and raise TypeError at a missing one; map_and returns the pointwise intersection and has exactly the keys at which the two maps share a point; map_or returns the pointwise union over the keys of both. On two-dimensional geoms the first three give the union, intersection or difference off the outlines of the operands whenever they return.", "quantifier": "all maps of legal geoms, any key type, any geom", "why_tests_cant": "any number of keys and intervals", "anchors": ["plycutter/sheetbuild.py: map_or_geom, map_and_geom, map_sub_geom, map_and, map_or (201-232)"]}
{"id": "C142", "title": "--random_seed must be between 0 and 2**32-1", "statement": "With a seed outside 0 .. 2**32-1 no run succeeds: single_fingers_random raises ValueError (if its check passes), canned_1 never returns ok=True, and the command line ends with KeyError for every mesh with a sheet. With a seed in range the run is that of the generator with this seed.", "quantifier": "all integers as seed, all sheetplexes, widths, dilations and generators", "why_tests_cant": "any sheets", "anchors": ["plycutter/heuristics.py: single_fingers_random (439-441)", "plycutter/command_line.py: --random_seed (59-60)", "plycutter/canned.py: canned_1 (34-91)"]}
{"id": "C143", "title": "A float64 run leaves only slivers open where two sheets of a mesh cross", "statement": "No position beyond 1000 along a joint is ever allowed to a side. So a run with ok=True on the sheets of a mesh, with fingers placed in float64, settles every point where two sheets cross as the exact run does, except within (2N+2)*2^-52*(N(max width+1)+1) of the right end of a stretch that was open before the fingers were placed; N is any number of smallest fingers that covers 2000. For the default widths this is below 1e-8.", "quantifier": "all meshes, generators, widths above 1/2 and orders; exact geometry, rounded finger placement", "why_tests_cant": "any sheets and joints", "anchors": ["plycutter/sheetbuild.py: create_sheetbuild (255-264)", "plycutter/heuristics.py: random_min_max, single_fingers_random (390-516)"]}
{"id": "C144", "title": "A finger width of zero fails wherever fingers are wanted", "statement": "If the minimal or the maximal finger width is 0, planning the fingers of a range raises ZeroDivisionError. So single_fingers_random returns only if no joint has anything open on its first side, and then it changes nothing.", "quantifier": "all builds, generators and roundings", "why_tests_cant": "any number of joints and ranges", "anchors": ["plycutter/heuristics.py: single_fingers_random (470-473)", "plycutter/command_line.py: --min_finger_width, --max_finger_width (45-48)"]}
{"id": "C145", "title": "Whole runs with finger widths that leave no choice", "statement": "In a run with ok=True whose minimal finger width is above the maximal one or negative (the maximal one being positive), everything still open on the first side of a joint before the finger step goes to that side and the second side gets nothing more. If a width is 0, a run ends with ok=True only if the earlier steps have left nothing open on the first side of any joint, and the finger step then changes no choice.", "quantifier": "all sheetplexes made by the model's own constructors, arrangements, generators, roundings and orders", "why_tests_cant": "any number of sheets and joints", "anchors": ["plycutter/canned.py: canned_1", "plycutter/heuristics.py: single_fingers_random (436-516)", "plycutter/command_line.py: --min_finger_width, --max_finger_width (45-48)"]}
{"id": "C146", "title": "What the DXF holds when some sheets are empty", "statement": "write_dxf keeps every sheet in order. Each ring of a sheet with an outline gives one closed polyline whose heights are those of the ring, moved so that the lowest point of the outline is at 0, whatever the other sheets are. The horizontal coordinates are NaN exactly if some sheet before it has no outline.", "quantifier": "all sequences of sheets, empty ones included", "why_tests_cant": "any number of sheets and rings", "anchors": ["plycutter/writer.py: write_dxf (26-58)", "plycutter/geometry/aabb.py: AABB"]}
{"id": "C147", "title": "Where the result is written", "statement": "With -o the result goes to the name given. Otherwise it goes to the directory of the input, under the input's name with its extension replaced by .dxf, or with .dxf added if it has none (a leading or final dot starts no extension). The input itself is overwritten exactly if it is called something.dxf; two inputs share an output exactly if they differ in the extension only; the command fails with ValueError exactly if the input has no name ('', '.', '/').", "quantifier": "all strings as input and output names (POSIX paths)", "why_tests_cant": "all strings", "anchors": ["plycutter/command_line.py: main (67-82, 103)"]}
