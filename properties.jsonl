{"id": "C01", "title": "Normalising a Manhattan polygon set preserves its covered region", "statement": "After any insertions (with overlaps, duplicates and holes) the cleaned data of a polygon_90_set covers exactly the points whose summed winding count over all inserted geometry is positive, and nothing else.", "quantifier": "every finite multiset of (column, row, count) vertices obtained from closed Manhattan geometry, every query point of the plane", "why_tests_cant": "the scan line merges, splits and cancels edges in ways that depend on the full coincidence pattern of an unbounded number of vertices; a test fixes one pattern", "anchors": ["include/boost/polygon/detail/boolean_op.hpp: applyBooleanOr, BooleanOp::processInterval", "include/boost/polygon/polygon_90_set_data.hpp: clean, sort, value"]}
{"id": "C02", "title": "Boolean operators on Manhattan polygon sets are pointwise", "statement": "For sets A and B the results of A|B, A&B, A^B and A-B cover exactly the points covered by A or B, A and B, exactly one of them, A but not B.", "quantifier": "all pairs of clean Manhattan polygon sets of any size, every query point", "why_tests_cant": "pointwise correctness over all pairs of regions cannot be enumerated; the interleaving of the two sorted vertex streams is unbounded", "anchors": ["include/boost/polygon/detail/boolean_op.hpp: applyBooleanBinaryOp, BinaryAnd, BinaryOr, BinaryNot, BinaryXor", "include/boost/polygon/polygon_90_set_data.hpp: applyBooleanBinaryOp, operator|=, &=, ^=, -="]}
{"id": "C03", "title": "Equality of Manhattan polygon sets is equality of regions", "statement": "Two polygon_90_set objects compare equal with == exactly when they cover the same points, no matter by which insertions they were built; the canonical vertex list is a function of the region alone.", "quantifier": "all pairs of polygon sets, however built", "why_tests_cant": "a test compares two given histories; the claim is about every pair of histories giving the same region", "anchors": ["include/boost/polygon/polygon_90_set_data.hpp: operator==, clean, sort", "include/boost/polygon/detail/boolean_op.hpp: applyBooleanOr"]}
{"id": "C04", "title": "Boolean algebra laws hold for Manhattan polygon set results under ==", "statement": "Commutativity, associativity, distributivity, idempotence, absorption and the difference laws of |, &, ^, - hold on polygon sets as equalities of the computed results.", "quantifier": "all triples of clean Manhattan polygon sets", "why_tests_cant": "laws quantify over all triples of regions", "anchors": ["include/boost/polygon/polygon_90_set_data.hpp: operator|=, &=, ^=, -=, ==", "include/boost/polygon/polygon_90_set_concept.hpp"]}
{"id": "C05", "title": "Rectangle decomposition tiles the region", "statement": "The rectangles written by get_rectangles for a set all have positive width and height, have pairwise disjoint interiors and their union is exactly the region of the set, for either slicing orientation.", "quantifier": "all clean Manhattan polygon sets, every query point", "why_tests_cant": "needs all regions and the whole history of the sweep; a test sees one partition", "anchors": ["include/boost/polygon/detail/rectangle_formation.hpp: ScanLineToRects, form_rectangles", "include/boost/polygon/polygon_90_set_data.hpp: get_rectangles"]}
{"id": "C06", "title": "Inserting a shape adds exactly its winding indicator", "statement": "Inserting a rectangle (or as hole) changes the winding count of the set by +1 (-1) on the half-open rectangle and by 0 elsewhere; inserting a Manhattan polygon, with or without holes and in either traversal direction, adds its winding count with the sign normalised to positive, holes subtracted. For polygons the last two edges must have positive length and no vertex may be repeated three times in a row; without that the claim is false.", "quantifier": "every rectangle, every closed alternating Manhattan vertex cycle of any length with proper closing edges, any number of holes, every query point, every reachable set", "why_tests_cant": "polygons have unboundedly many vertices and may self-touch", "anchors": ["include/boost/polygon/detail/iterator_geometry_to_set.hpp: iterator_geometry_to_set", "include/boost/polygon/polygon_90_set_data.hpp: insert"]}
{"id": "C07", "title": "Moving, transforming and scaling up a polygon set maps its region", "statement": "move, transform by any of the eight axis transformations and scale_up by a positive factor map the region of the set by the corresponding map of the plane; the set stays a valid one and equality of sets is preserved.", "quantifier": "all sets, displacements, axis transformations and positive factors", "why_tests_cant": "sorting order changes under reflection; all sets and all transforms must be covered", "anchors": ["include/boost/polygon/polygon_90_set_data.hpp: move, transform, scale_up", "include/boost/polygon/transform.hpp: axis_transformation"]}
{"id": "C08", "title": "Scaling a polygon set down keeps emptiness and equality meaningful", "statement": "After scale_down or scale, sets whose image covers the same region compare equal and a set whose image covers nothing is empty().", "quantifier": "all clean sets, all positive divisors", "why_tests_cant": "depends on which coordinates collapse onto each other", "anchors": ["include/boost/polygon/polygon_90_set_data.hpp: scale_down, scale, empty, operator=="]}
{"id": "C09", "title": "self_xor and self_intersect compute odd and multiple coverage", "statement": "self_xor covers exactly the points with odd insertion count; self_intersect covers exactly the points covered by at least two of the inserted shapes.", "quantifier": "all vertex multisets from closed geometry, every query point", "why_tests_cant": "counts are unbounded", "anchors": ["include/boost/polygon/polygon_90_set_data.hpp: self_xor, self_intersect", "include/boost/polygon/detail/boolean_op.hpp: UnaryCount"]}
{"id": "C10", "title": "Bloat of a Manhattan set is Minkowski sum with a box, shrink is its dual", "statement": "bloat(west,east,south,north) covers exactly the points within the given offsets of the region (Minkowski sum with the box); shrink covers the points whose box lies in the region; bloat then shrink contains the original.", "quantifier": "all clean sets, all non-negative offsets, every point", "why_tests_cant": "touching and merging of an unbounded number of grown pieces", "anchors": ["include/boost/polygon/polygon_90_set_data.hpp: bloat, shrink, resize, bloat2, shrink2"]}
{"id": "C11", "title": "extents is the tightest bounding rectangle", "statement": "For a non-empty set (or polygon, or point sequence) extents returns the smallest rectangle containing every covered point; for an empty set it returns false.", "quantifier": "all sets, polygons", "why_tests_cant": "minimality is a universally quantified statement", "anchors": ["include/boost/polygon/polygon_90_set_data.hpp: extents", "include/boost/polygon/polygon_traits.hpp: extents", "include/boost/polygon/rectangle_concept.hpp: encompass"]}
{"id": "C12", "title": "Connectivity extraction reports exactly the touching pairs", "statement": "connectivity_extraction_90 puts an edge between two inserted items exactly if their closed regions share a point (corner touching included); the graph is symmetric and without self loops.", "quantifier": "any number of input regions stored with one scan orientation (always so for rectangles and polygons inserted as such; for a mixture of orientations the claim is false, see C12_mixed_orientation_refuted)", "why_tests_cant": "all coincidence patterns of many shapes along the sweep line", "anchors": ["include/boost/polygon/detail/polygon_90_touch.hpp: touch_90_operation, TouchOp::processInterval", "include/boost/polygon/polygon_90_set_data.hpp: connectivity_extraction_90"]}
{"id": "C13", "title": "Property merge partitions the plane by property sets", "statement": "property_merge_90 maps every non-empty property set S to exactly the region of points covered by the inputs carrying each property of S and by no other.", "quantifier": "any number of properties and inputs, every query point", "why_tests_cant": "exponentially many property combinations, unbounded shapes", "anchors": ["include/boost/polygon/detail/property_merge.hpp: merge_scanline", "include/boost/polygon/polygon_90_set_data.hpp: property_merge_90"]}
{"id": "C14", "title": "Maximal rectangles are inside the region and maximal", "statement": "get_max_rectangles returns rectangles that lie in the region, none of which can be extended inside the region, and every maximal rectangle is returned.", "quantifier": "all clean sets", "why_tests_cant": "maximality is universally quantified", "anchors": ["include/boost/polygon/detail/max_cover.hpp: MaxCover"]}
{"id": "C15", "title": "Interval predicates and operations have point-set semantics", "statement": "For intervals low<=high: contains, intersects, boundaries_intersect, abuts agree with the closed (touch) or open (no touch) point sets; intersect computes the common points and leaves the interval unchanged when there is none; encompass computes the hull; join_with succeeds exactly for abutting intervals (it refuses overlapping ones, see the refuted theorem) and then yields the union, otherwise it changes nothing; construct and get_half give low<=high; interval_data's < is a strict total order.", "quantifier": "all intervals over the integers, all values, both touch modes", "why_tests_cant": "infinitely many coordinate order types including all equalities, plus points between coordinates", "anchors": ["include/boost/polygon/interval_concept.hpp"]}
{"id": "C16", "title": "Interval arithmetic laws", "statement": "convolve/deconvolve by a point, move by d/-d, flip twice, bloat/shrink, reflected_convolve/reflected_deconvolve round trip; results keep low<=high where documented.", "quantifier": "all integer intervals and offsets in coordinate range", "why_tests_cant": "all-coordinates statement including the boundary of the int range", "anchors": ["include/boost/polygon/interval_concept.hpp: convolve, deconvolve, move, flip, bloat, shrink, scale_up"]}
{"id": "C17", "title": "Distances and centres are free of coordinate overflow", "statement": "center, delta, euclidean_distance and manhattan_distance of intervals, points and rectangles with int coordinates never overflow the coordinate type and return the mathematical value.", "quantifier": "all int coordinates", "why_tests_cant": "overflow needs specific extreme inputs; unit tests use small coordinates", "anchors": ["include/boost/polygon/interval_concept.hpp: center, delta, euclidean_distance", "include/boost/polygon/point_concept.hpp: euclidean_distance, manhattan_distance, distance_squared", "include/boost/polygon/rectangle_concept.hpp: center, area"]}
{"id": "C18", "title": "Interval and rectangle distance is the distance of the nearest points", "statement": "euclidean_distance of an interval to a value/interval, and square_euclidean/manhattan distance of a rectangle to a point/rectangle, equal the minimum over the points of the shape.", "quantifier": "all valid intervals, rectangles, points", "why_tests_cant": "minimum over infinitely many points", "anchors": ["include/boost/polygon/interval_concept.hpp: euclidean_distance", "include/boost/polygon/rectangle_concept.hpp: square_euclidean_distance, manhattan_distance, euclidean_distance"]}
{"id": "C19", "title": "Rectangle predicates and intersection have point-set semantics in both touch modes", "statement": "contains, intersects, intersect, encompass, abuts, boundaries_intersect of rectangles agree with the product point sets, with consider_touch selecting closed or open sets; intersect returns true exactly if the rectangles intersect in the requested mode and otherwise leaves the object unchanged.", "quantifier": "all pairs of rectangles, both touch modes", "why_tests_cant": "all relative positions and equalities", "anchors": ["include/boost/polygon/rectangle_concept.hpp"]}
{"id": "C20", "title": "Rectangle affine operations map the point set", "statement": "move, convolve, deconvolve, transform, scale_up, scale, bloat of a rectangle map its set of points by the corresponding map.", "quantifier": "all rectangles, all offsets, transformations and scale policies", "why_tests_cant": "quantifies over all rectangles and transformation objects", "anchors": ["include/boost/polygon/rectangle_concept.hpp: move, convolve, transform, scale, scale_up, bloat"]}
{"id": "C21", "title": "Directions form the expected cyclic structure", "statement": "backward is an involution, left and right turns are mutually inverse and of order four, turn preserves/changes orientation as documented, sign and orientation determine the direction.", "quantifier": "all directions and turns in 2D and 3D", "why_tests_cant": "finite but combined with coordinates over all points in the transformation properties", "anchors": ["include/boost/polygon/isotropy.hpp: direction_1d, orientation_2d, direction_2d, orientation_3d, direction_3d"]}
{"id": "C22", "title": "Axis transformations: inverse undoes, composition composes", "statement": "For every axis transformation t and point p: t.inverse() undoes t on p; applying t1 then t2 equals applying t1+t2; get_directions/set_directions round trip.", "quantifier": "all 8 (64 pairs) transformations, all points of the plane", "why_tests_cant": "all points; tests use single points", "anchors": ["include/boost/polygon/transform.hpp: axis_transformation"]}
{"id": "C23", "title": "Affine transformations: inverse undoes, composition composes", "statement": "For the class transformation (axis transformation with reference point): invert() yields the inverse map; a += b yields the map b after a.", "quantifier": "all transformations and points", "why_tests_cant": "the reads of uninitialised storage in += are invisible to a test whose stack happens to hold zeros", "anchors": ["include/boost/polygon/transform.hpp: transformation"]}
{"id": "C24", "title": "Segment orientation is exact for int coordinates", "statement": "orientation(segment, segment) and orientation(segment, point) return the sign of the exact cross product for all int coordinates, with no overflow in intermediate arithmetic.", "quantifier": "all int (32 bit) coordinates including INT_MIN and INT_MAX", "why_tests_cant": "2^256 inputs; errors only at extreme differences", "anchors": ["include/boost/polygon/segment_concept.hpp: orientation"]}
{"id": "C25", "title": "Segment intersection and containment agree with the real segments", "statement": "contains(segment, point, touch) holds exactly if the point lies on the closed segment (and, without touch, is not an end point); contains(s1,s2) exactly if every point of s2 is such a point of s1; intersects(s1,s2) exactly if the two closed segments share a point of the real plane (without touch: one that is not an end point of both); abuts exactly if the high end of one is the low end of the other.", "quantifier": "all segments with int end points including degenerate and collinear ones", "why_tests_cant": "intersection points have rational coordinates; degenerate patterns are numerous", "anchors": ["include/boost/polygon/segment_concept.hpp: contains, intersects, abuts"]}
{"id": "C26", "title": "Point to segment distance is zero exactly for points on the segment", "statement": "euclidean_distance(segment, point) is the distance to the nearest point of the segment; in particular zero iff the point is on it.", "quantifier": "all segments including degenerate ones, all points", "why_tests_cant": "nearest point over a continuum", "anchors": ["include/boost/polygon/segment_concept.hpp: euclidean_distance"]}
{"id": "C27", "title": "Point operations and lexicographic order", "statement": "convolve/deconvolve, move, scale_up are mutually inverse where claimed and the point order (point_data <, less_point) is a strict total order; manhattan distance is a metric.", "quantifier": "all points", "why_tests_cant": "laws over all pairs and triples", "anchors": ["include/boost/polygon/point_concept.hpp", "include/boost/polygon/point_data.hpp: operator<"]}
{"id": "C28", "title": "Polygon area is the signed shoelace area", "statement": "area of a point sequence is the absolute shoelace area; it does not depend on the start vertex, is invariant under translation and negated internally by reversal, so that winding(reverse p) is the opposite of winding(p) for non-zero area.", "quantifier": "all closed vertex sequences of any length over the integers", "why_tests_cant": "unbounded polygons", "anchors": ["include/boost/polygon/polygon_traits.hpp: point_sequence_area, area, winding"]}
{"id": "C29", "title": "Compact coordinates and vertices of a Manhattan polygon round trip", "statement": "Expanding the alternating coordinate list of a polygon_90 to points and compacting again yields the same list; the points form a closed rectilinear cycle.", "quantifier": "all coordinate lists of even length >= 4", "why_tests_cant": "unbounded lists", "anchors": ["include/boost/polygon/detail/iterator_compact_to_points.hpp", "include/boost/polygon/detail/iterator_points_to_compact.hpp"]}
{"id": "C30", "title": "Point in Manhattan polygon is crossing parity", "statement": "contains(polygon_90, p, touch): on the boundary the answer is touch; elsewhere it is true exactly if a horizontal ray from p crosses an odd number of vertical edges (half-open rule), independent of start vertex and direction.", "quantifier": "all rectilinear closed cycles, all points", "why_tests_cant": "rays through vertices and collinear runs of arbitrary length", "anchors": ["include/boost/polygon/polygon_traits.hpp: contains (polygon_90_concept)"]}
{"id": "C31", "title": "Point in general polygon is crossing parity", "statement": "contains(polygon, p, touch): on the boundary the answer is touch; elsewhere true exactly if the vertical ray from p crosses an odd number of edges.", "quantifier": "all closed vertex cycles, all points", "why_tests_cant": "unbounded polygons and degenerate rays", "anchors": ["include/boost/polygon/polygon_traits.hpp: contains (polygon_concept)", "include/boost/polygon/polygon_traits.hpp: edge_utils"]}
{"id": "C32", "title": "is_45 recognises exactly the polygons it names", "statement": "is_45 holds iff every edge (of the outer boundary and of every hole) is axis parallel or diagonal.", "quantifier": "all polygons, with holes", "why_tests_cant": "unbounded polygons", "anchors": ["include/boost/polygon/polygon_traits.hpp: is_45"]}
{"id": "C33", "title": "Slope comparison and side-of-line tests are exact", "statement": "less_slope, equal_slope and on_above_or_below agree with exact rational slope comparison and the sign of the cross product for all int coordinates, without overflow. The predicates of the general scan line are exact too: intersects implies a common point and is implied by a crossing inside both edges, intersects_grid says whether the edge passes the half-open unit square of the point, and compute_intersection yields the rounded intersection.", "quantifier": "all int coordinates", "why_tests_cant": "extreme coordinates", "anchors": ["include/boost/polygon/polygon_traits.hpp: edge_utils", "include/boost/polygon/detail/polygon_arbitrary_formation.hpp: scanline_base"]}
{"id": "C34", "title": "Big integer arithmetic of the Voronoi builder is exact", "statement": "For extended_int, conversion from int32/int64, negation, addition, subtraction, multiplication return the exact mathematical value as long as it fits the declared number of 32-bit chunks.", "quantifier": "all values of the declared size", "why_tests_cant": "carry and borrow chains across chunks", "anchors": ["include/boost/polygon/detail/voronoi_ctypes.hpp: extended_int"]}
{"id": "C35", "title": "Big integer comparison and sign agree with the value", "statement": "==, <, is_zero, is_pos, is_neg of extended_int agree with the mathematical value for every extended_int obtained by arithmetic.", "quantifier": "all values reachable by construction and arithmetic", "why_tests_cant": "needs borrow chains that cancel several leading chunks", "anchors": ["include/boost/polygon/detail/voronoi_ctypes.hpp: extended_int::operator==, operator<, dif, is_zero"]}
{"id": "C36", "title": "ULP comparison is a consistent order on doubles", "statement": "ulp_comparison(a,b,maxUlps) returns LESS/EQUAL/MORE consistently: antisymmetric, EQUAL iff the number of representable doubles between them is at most maxUlps, and LESS implies a<b.", "quantifier": "all pairs of finite doubles, all maxUlps", "why_tests_cant": "2^128 pairs", "anchors": ["include/boost/polygon/detail/voronoi_ctypes.hpp: ulp_comparison"]}
{"id": "C37", "title": "Voronoi orientation test is exact", "statement": "The orientation of three int points computed by the Voronoi predicates is the sign of the exact determinant; the four-difference form as well.", "quantifier": "all int coordinates", "why_tests_cant": "wrap-around needs specific extreme operands", "anchors": ["include/boost/polygon/detail/voronoi_predicates.hpp: robust_cross_product, orientation_test"]}
{"id": "C38", "title": "Site event order is a strict weak order", "statement": "The comparison of site events used for sorting the input of the Voronoi builder is irreflexive, asymmetric and transitive with transitive incomparability on initialised sites, as std::sort requires.", "quantifier": "all triples of point and segment sites", "why_tests_cant": "all triples incl. degenerate positions", "anchors": ["include/boost/polygon/detail/voronoi_predicates.hpp: event_comparison_predicate, point_comparison_predicate"]}
{"id": "C39", "title": "robust_dif, robust_sqrt_expr and robust_fpt compute the expressions they name within the stated error", "statement": "robust_dif arithmetic keeps both parts non-negative and its difference is the exact expression; eval1..eval4 of robust_sqrt_expr equal sum A[i]*sqrt(B[i]) up to 4, 7, 16 and 25 units of rounding, have its sign and never divide by zero; the error carried by robust_fpt bounds the distance to the exact result.", "quantifier": "all real parts; all integers A and non-negative B; all roundings of bounded relative error", "why_tests_cant": "algebraic identity over a continuum with sign case splits", "anchors": ["include/boost/polygon/detail/voronoi_robust_fpt.hpp: robust_dif, robust_sqrt_expr, robust_fpt"]}
{"id": "C40", "title": "Half-edge structure stays consistent during Voronoi construction", "statement": "After any sequence of edge insertions made by the builder, twin is a fixed-point-free involution, next and prev are mutually inverse wherever set, and the two half-edges of an edge belong to the cells of their sites.", "quantifier": "all histories of insertions", "why_tests_cant": "history property with pointer updates", "anchors": ["include/boost/polygon/voronoi_diagram.hpp: _insert_new_edge, _build, remove_edge"]}
{"id": "C41", "title": "Colour storage does not disturb flags", "statement": "Setting the user colour of a Voronoi cell, vertex or edge is read back (for colours that fit) and never changes source category, linearity or primality.", "quantifier": "all colour values", "why_tests_cant": "bit level claim for all words", "anchors": ["include/boost/polygon/voronoi_diagram.hpp: color", "include/boost/polygon/voronoi_geometry_type.hpp: belongs"]}
{"id": "C42", "title": "Const queries on Manhattan polygon sets are observationally pure", "statement": "Adding or removing a call of a const member (empty, ==, equivalence, extents, clean) anywhere in a history of calls changes neither the answers of the other calls nor the region of any set at the end.", "quantifier": "all histories of calls on any number of polygon sets, and all positions in them", "why_tests_cant": "The members are const but rewrite mutable data; whether a rewrite is visible depends on everything that happens afterwards, so it is a statement about pairs of unbounded histories.", "anchors": ["include/boost/polygon/polygon_90_set_data.hpp: clean, sort, empty, operator==, extents", "include/boost/polygon/polygon_90_set_concept.hpp: equivalence"]}
{"id": "C43", "title": "Segment maps, order and envelope agree with the point sets", "statement": "convolve, deconvolve, move, scale_up and transform map the points of a segment pointwise, keep the order of its ends and are undone by their inverses; operator< is a strict total order consistent with ==; envelope_segments computes the least rectangle around all segments and returns false exactly for an empty range, leaving the rectangle alone; center is the midpoint rounded towards zero whenever the sums of coordinates are representable.", "quantifier": "all segments with int coordinates, all offsets, factors and transformations, all finite ranges of segments", "why_tests_cant": "the statement is about a continuum of points and unbounded ranges", "anchors": ["include/boost/polygon/segment_concept.hpp: convolve, deconvolve, move, scale_up, transform, center", "include/boost/polygon/segment_data.hpp: operator<", "include/boost/polygon/segment_utils.hpp: envelope_segments"]}
{"id": "C44", "title": "The Voronoi builder processes every distinct site exactly once", "statement": "After inserting any points and segments (segments that start at the same point and point the same way are equal, as the documentation requires), the queue of site events the sweep runs over contains each inserted point, each end point of an inserted segment and each segment (directed from its lexicographically smaller end point) exactly once, in strictly increasing event order, whichever sorted permutation std::sort returns.", "quantifier": "all multisets of input points and segments with int coordinates, all results std::sort may return", "why_tests_cant": "depends on ties of the order for all inputs and on the freedom of an unstable sort", "anchors": ["include/boost/polygon/voronoi_builder.hpp: insert_point, insert_segment, init_sites_queue", "include/boost/polygon/detail/voronoi_predicates.hpp: event_comparison_predicate"]}
{"id": "C45", "title": "The perimeter of a Manhattan polygon is the sum of its edge lengths", "statement": "perimeter of a polygon_90, with or without holes, is the sum of the lengths of the edges of all its boundaries.", "quantifier": "all polygon_90 with holes", "why_tests_cant": "unbounded polygons", "anchors": ["include/boost/polygon/polygon_traits.hpp: perimeter, point_sequence_distance"]}
{"id": "C46", "title": "A rectangle converted to a polygon is the same region", "statement": "assign(polygon, rectangle) yields a counterclockwise polygon that contains exactly the points of the rectangle (with and without its boundary), with the same area and extents.", "quantifier": "all rectangles, all points", "why_tests_cant": "all coordinates", "anchors": ["include/boost/polygon/polygon_traits.hpp: assign (rectangle), contains, extents"]}
{"id": "C47", "title": "Moving, transforming and scaling a polygon moves its region", "statement": "After convolve, move, transform (any axis transformation) or scale_up, the polygon contains the image of a point exactly if it contained the point before; polygons with holes are mapped ring by ring; scale_down undoes scale_up.", "quantifier": "all polygons, all points, all transformations", "why_tests_cant": "unbounded polygons", "anchors": ["include/boost/polygon/polygon_traits.hpp: convolve, move, transform, scale_up, scale_down"]}
{"id": "C48", "title": "snap_to_45 yields a 45-degree polygon", "statement": "After snap_to_45 every edge is horizontal, vertical or diagonal; a 45-degree polygon is left alone.", "quantifier": "all vertex sequences", "why_tests_cant": "unbounded sequences; wrap-around at the first vertex", "anchors": ["include/boost/polygon/polygon_traits.hpp: snap_point_vector_to_45, snap_to_45"]}
{"id": "C49", "title": "The Voronoi sweep ends and never leaves its memory", "statement": "For every input, construct finishes after at most three events per site; no pointer into cells, vertices or edges is invalidated by a vector growing beyond what was reserved; no null or dangling pointer or iterator is used; at most 2n-3 vertices and 3n-4 edges arise from n sites; no temporary bisector of a segment is left over.", "quantifier": "all inputs of points and segments, all outcomes of the floating point decisions", "why_tests_cant": "memory safety and termination for every sequence of events, even under rounding", "anchors": ["include/boost/polygon/voronoi_builder.hpp: construct, process_site_event, process_circle_event, insert_new_arc", "include/boost/polygon/voronoi_diagram.hpp: _reserve, _insert_new_edge"]}
{"id": "C50", "title": "Cells and edge flags of a Voronoi diagram match the input", "statement": "The cells of a Voronoi diagram correspond one to one to the distinct places of the input sites (points, segment end points, open segments); source index and category of a cell name the input at that place. An edge is secondary exactly between a segment and its own end point, and curved exactly between a segment and a point that is not its end point.", "quantifier": "all inputs, all edges of the finished diagram", "why_tests_cant": "must hold for every input with duplicates and shared end points", "anchors": ["include/boost/polygon/voronoi_builder.hpp: insert_point, insert_segment, init_sites_queue", "include/boost/polygon/voronoi_diagram.hpp: is_primary_edge, is_linear_edge, _insert_new_edge, source_index, source_category"]}
{"id": "C51", "title": "interact keeps exactly the polygons that touch the argument", "statement": "polygon_90_set_data::interact replaces the set by those of its polygons whose closed region shares a point with the closed region of the argument; no other polygon is kept and none of the touching ones is lost, whatever form (dirty, unsorted) the argument is stored in.", "quantifier": "all sets of polygons and all argument sets that arise in histories of accepted calls", "why_tests_cant": "the selection depends on a sweep over all shapes at once, and on the lazily maintained storage state of the argument", "anchors": ["include/boost/polygon/polygon_90_set_data.hpp: interact", "include/boost/polygon/detail/polygon_90_touch.hpp: touch_90_operation"]}
{"id": "C52", "title": "get returns polygons that cover the region exactly", "statement": "For every Manhattan polygon set, get into polygons with holes and get into polygons without holes (holes cut open into the outer curve) finish without undefined behaviour. The outer curves are counterclockwise, the holes clockwise, inside their outer curve and disjoint; every curve has int coordinates and edges of positive length that alternate between horizontal and vertical. A cell lies in exactly one polygon if it is in the region and in none otherwise. With holes, every curve runs along the boundary of the region with the region on its left, and cells that meet only in a point are kept apart. The region of the set is unchanged, and inserting the polygons into an empty set gives an equal set.", "quantifier": "all polygon sets that arise in histories of accepted calls, both scan orientations, with and without holes", "why_tests_cant": "the scan line joins, splits and closes chains in unboundedly many configurations, with corners that touch at a point", "anchors": ["include/boost/polygon/detail/polygon_formation.hpp: ScanLineToPolygonItrs, get_polygons, ActiveTail", "include/boost/polygon/polygon_90_set_data.hpp: get, get_polygons"]}
{"id": "C53", "title": "area of a Manhattan set is the area of the covered region", "statement": "area(set) is the number of unit cells covered by the region, whatever the overlaps of the shapes inserted and whatever the stored form of the set; sets that cover the same region have the same area. Signed overflow occurs exactly if the area does not fit into 64 bits, never for coordinates of at most 2^30.", "quantifier": "all Manhattan sets that arise in histories of accepted calls", "why_tests_cant": "the number and overlap of the shapes is unbounded, and the sum may overflow only for extreme coordinates", "anchors": ["include/boost/polygon/polygon_90_set_concept.hpp: area", "include/boost/polygon/detail/rectangle_formation.hpp"]}
{"id": "C54", "title": "grow_and keeps the overlaps that bloating introduces", "statement": "grow_and(set, west, east, south, north) covers exactly the cells that lie in the bloat of two different polygons of the set; the polygons cover the set without overlaps. Nothing outside the bloat of the set is covered, nothing at all if the amounts are zero, and the orientation is kept.", "quantifier": "all Manhattan sets that arise in histories of accepted calls, all non-negative amounts, every cell", "why_tests_cant": "it combines polygon formation, bloat and self intersection of any number of polygons", "anchors": ["include/boost/polygon/polygon_90_set_concept.hpp: grow_and, self_intersect"]}
{"id": "C55", "title": "keep retains exactly the polygons within the limits", "statement": "keep(set, limits) covers exactly the polygons of the set whose area and whose bounding box sides lie within the limits, and nothing else; all limits are inclusive.", "quantifier": "all Manhattan sets that arise in histories of accepted calls, all limits, every cell", "why_tests_cant": "boundary values of six limits, over polygons of any shape", "anchors": ["include/boost/polygon/polygon_90_set_concept.hpp: keep"]}
{"id": "C56", "title": "intersect_segments leaves no intersections except at end points", "statement": "For segments whose coordinates are below the greatest int and whose extents fit in an int, intersect_segments finishes without overflow or undefined behaviour. Two pieces of the result share a point of the plane only if it is an end point of both, or if they are the same piece up to direction. Every piece carries the index of its segment; the pieces are in the order of the segments.", "quantifier": "all lists of segments, all pairs of pieces, all points of the real plane", "why_tests_cant": "snapping to the grid may create new intersections in unboundedly many configurations; the division into bins only starts at thirty segments", "anchors": ["include/boost/polygon/segment_utils.hpp: intersect_segments", "include/boost/polygon/detail/scan_arbitrary.hpp: line_intersection::validate_scan, segment_intersections"]}
{"id": "C57", "title": "The pieces of a segment are a path between its ends", "statement": "In the result of intersect_segments the pieces with the index of a segment lead, in their order, from the lexicographically lower end of the segment to the other end, each starting where the previous one ended, and never come twice to the same point; a segment that is a point has no pieces.", "quantifier": "all lists of segments, every segment of them", "why_tests_cant": "depends on the order of the snapped points along every slope, including vertical pieces of falling segments", "anchors": ["include/boost/polygon/segment_utils.hpp: intersect_segments", "include/boost/polygon/detail/scan_arbitrary.hpp: segment_edge, segment_intersections"]}
{"id": "C58", "title": "Split segments stay within one grid unit", "statement": "Every point of a piece of intersect_segments has a point of its segment less than one unit to the right and above (never to the left or below), and every point of a segment of positive length is reached in this way from one of its pieces. The pieces of horizontal and vertical segments lie on the segment.", "quantifier": "all lists of segments, all pieces, all points of the real plane", "why_tests_cant": "the error must not accumulate however many segments cross", "anchors": ["include/boost/polygon/segment_utils.hpp: intersect_segments", "include/boost/polygon/detail/scan_arbitrary.hpp: validate_scan"]}
{"id": "C59", "title": "Segments are split exactly where needed", "statement": "A segment is split by intersect_segments at a vertex of the result if and only if it passes the half-open unit square of which the vertex is the lower left corner. Every vertex of the result is an end of an input segment or the rounded common point of two input segments.", "quantifier": "all lists of segments, every segment and every grid point", "why_tests_cant": "every hot point must be tested against every segment although the scan works bin by bin with early exits", "anchors": ["include/boost/polygon/segment_utils.hpp: intersect_segments", "include/boost/polygon/detail/scan_arbitrary.hpp: validate_scan, validate_scan_divide_and_conquer, compute_y_cuts", "include/boost/polygon/detail/polygon_arbitrary_formation.hpp: scanline_base::intersects_grid, compute_intersection"]}
{"id": "C60", "title": "The scan line finds the properties on both sides of every edge", "statement": "Given edges with properties and counts that meet only in common end points and make up closed curves, the scan line reports every edge whose two sides are covered by different sets of properties exactly once, with the properties on its left and on its right, and no other edge; the edges kept by a boolean operation bound exactly the plane that the operation keeps.", "quantifier": "all finite sets of edges in general position on the grid, all properties, all counts", "why_tests_cant": "the order of edges in the scan line, vertical edges and edges that start or end in the same point have unboundedly many configurations", "anchors": ["include/boost/polygon/detail/scan_arbitrary.hpp: scanline, arbitrary_boolean_op::boolean_output_functor", "include/boost/polygon/detail/polygon_arbitrary_formation.hpp: less_half_edge"]}
{"id": "C61", "title": "Boolean operations on general polygon sets yield well formed sets", "statement": "Union, intersection, difference and symmetric difference of polygon sets with edges of any angle end without overflow or undefined behaviour; in the result no two edges cross or overlap, no edge occurs twice, every edge counts +1 or -1 and the edges make up closed curves; every point of them is less than one unit away from an edge of the operands.", "quantifier": "all pairs of sets of closed curves with int coordinates, the least x excluded, and differences of coordinates that are ints", "why_tests_cant": "rounding of intersections moves edges; that they never cross afterwards has to hold for every input", "anchors": ["include/boost/polygon/polygon_set_concept.hpp: operator|, operator&, operator^, operator-", "include/boost/polygon/detail/polygon_set_view.hpp: execute_boolean_op", "include/boost/polygon/detail/scan_arbitrary.hpp: arbitrary_boolean_op::execute"]}
{"id": "C62", "title": "Boolean operations cover what set algebra says up to one grid unit", "statement": "Every point that is at least one unit away, in x or in y, from all edges of the operands is covered by the result if and only if the operation says so from the cover of the operands, and it is covered once. For horizontal and vertical edges this holds for all points.", "quantifier": "all pairs of sets, all points of the real plane, all four operations", "why_tests_cant": "a point set identity over the plane", "anchors": ["include/boost/polygon/detail/polygon_set_view.hpp: execute_boolean_op", "include/boost/polygon/detail/scan_arbitrary.hpp: arbitrary_boolean_op::execute"]}
{"id": "C63", "title": "Inserting polygons with holes into a general set", "statement": "The set made of polygons with holes covers every point as often as the sum over the polygons of the winding number of the outer curve minus those of the holes, whatever the direction of the vertex lists; its edges are the edges of the polygons.", "quantifier": "all lists of polygons with any number of holes and vertices, also with repeated vertices and self intersections, all points of the plane", "why_tests_cant": "orientation, vertical edges, repeated and closing vertices combine without bound", "anchors": ["include/boost/polygon/polygon_set_data.hpp: insert, insert_vertex_sequence, insert_clean"]}
{"id": "C64", "title": "clean of a general polygon set", "statement": "clean replaces a set by edges that do not cross and count +1 or -1; points at least one unit away from the edges, for horizontal and vertical edges all points, are covered once if they were covered a positive number of times and not otherwise. Cleaning a cleaned set does not change it and simple polygons on grid points are kept.", "quantifier": "all sets of closed curves, all points of the plane", "why_tests_cant": "a point set identity; stability under repetition must hold for every input", "anchors": ["include/boost/polygon/detail/polygon_set_view.hpp: polygon_set_data::clean"]}
{"id": "C65", "title": "Equality of general polygon sets", "statement": "== is defined, every set equals itself, equal sets cover the same points at least one unit away from all edges, sets with horizontal and vertical edges are equal if and only if they cover the same points; a set equals its cleaned form.", "quantifier": "all pairs of sets of closed curves", "why_tests_cant": "an equivalence with the equality of point sets in the plane", "anchors": ["include/boost/polygon/detail/polygon_set_view.hpp: polygon_set_data::operator=="]}
{"id": "C66", "title": "Range of coordinates of general polygon sets", "statement": "Insertion, boolean operations and clean do not overflow for int coordinates.", "quantifier": "all polygons with int coordinates", "why_tests_cant": "overflow happens at few of 2^64 points", "anchors": ["include/boost/polygon/detail/scan_arbitrary.hpp: scanline::scan", "include/boost/polygon/detail/polygon_arbitrary_formation.hpp: less_half_edge, less_slope"]}
{"id": "C67", "title": "Property merge of general polygons", "statement": "property_merge divides the plane by the sets of properties that cover it: every nonempty set of properties occurs at most once as a key, the polygon set of a key is not empty, its edges do not cross and count +1 or -1 and lie within one unit of the given edges, the polygon sets of different keys do not overlap, and a point at least one unit away from all edges (for horizontal and vertical edges: every point) is covered by the polygon set of exactly the properties of the polygons that cover it; polygons inserted as holes are subtracted.", "quantifier": "all sequences of insertions of polygons with holes, all points of the plane", "why_tests_cant": "a partition of the plane for every arrangement of polygons and every set of properties", "anchors": ["include/boost/polygon/detail/scan_arbitrary.hpp: property_merge::insert, property_merge::merge, merge_output_functor, create_vertex"]}
{"id": "C68", "title": "Connectivity of general polygon sets", "statement": "connectivity_extraction joins two different nodes, in both directions, exactly if their polygon sets touch: if they overlap, share a part of an edge or a single point (for horizontal and vertical edges exactly; for edges of other angles nodes that both cover a point two units away from their edges are joined, and nodes that are joined come within two units of each other's reach). No other node ids appear in the graph, and extraction is defined for every set of nodes.", "quantifier": "all lists of polygon sets, all pairs of nodes", "why_tests_cant": "the graph depends on every pair of nodes and every arrangement of their edges, single common points included", "anchors": ["include/boost/polygon/polygon_set_data.hpp: connectivity_extraction", "include/boost/polygon/detail/scan_arbitrary.hpp: arbitrary_connectivity_extraction"]}
{"id": "C69", "title": "Polygons formed from a general polygon set follow its boundary", "statement": "get, into polygons with holes, is defined for every polygon set: it neither overflows nor follows a dangling pointer. Every ring of the result, outer or hole, is closed and has at least three vertices; the rings together go along every edge of the cleaned set exactly once, with the covered side on the left, and along nothing else.", "quantifier": "all sets of closed curves with int coordinates, in any direction", "why_tests_cant": "the scan joins chains of vertices at every kind of vertex, where any number of edges may start and end and holes may be closed, in every combination", "anchors": ["include/boost/polygon/polygon_set_data.hpp: polygon_set_data::get, get_fracture", "include/boost/polygon/detail/polygon_arbitrary_formation.hpp: polygon_arbitrary_formation, active_tail_arbitrary, processPoint_, processEvent_"]}
{"id": "C70", "title": "Polygons from a general polygon set cover what was inserted", "statement": "The rings that get returns wind, together, around every place of the plane once or not at all: once exactly where the inserted polygons cover the plane, for places at least one unit away from their edges, and everywhere if all edges are horizontal or vertical. The rings stay within one unit of the inserted edges.", "quantifier": "all lists of polygons with holes, all places of the plane", "why_tests_cant": "for every arrangement of polygons and every place of the plane", "anchors": ["include/boost/polygon/polygon_set_data.hpp: polygon_set_data::insert, clean, get", "include/boost/polygon/detail/polygon_arbitrary_formation.hpp: polygon_arbitrary_formation::scan"]}
{"id": "C71", "title": "The circle formation functors compute the common circle", "statement": "Whenever a circle meets three sites of the Voronoi sweep (passes through the point sites, touches the lines of the segment sites and lies on their right) in clockwise order, the circle event that is computed for the three sites has the centre of that circle and, as lower_x, its rightmost abscissa. This holds for each of the four kinds (three points, two points and a segment, a point and two segments, three segments), for the lazy functor whatever it decides to recompute, and for the exact functor, which leaves alone what it is not asked for. No root of a negative number is taken and nothing is divided by zero on the way.", "quantifier": "all sites with integer coordinates, all circles, all choices of what is recomputed; exact arithmetic", "why_tests_cant": "four kinds of closed formulas with roots, each with degenerate branches (parallel segments, a chord parallel to the segment) and sign decisions, over all coordinates", "anchors": ["include/boost/polygon/detail/voronoi_predicates.hpp: mp_circle_formation_functor, lazy_circle_formation_functor, sqrt_expr_evaluator_pss3, sqrt_expr_evaluator_pss4"]}
{"id": "C72", "title": "Every circle that touches three sites is found", "statement": "If a circle touches three sites (the segments themselves, not only their lines) and passes them, clockwise from its rightmost point, in the order in which they are given, then the circle formation predicate reports it: the existence tests do not reject it, nor does the test of vertical segments, and the event is the centre and the rightmost abscissa. Three points give a circle exactly when they turn right. A segment and its own reverse side by side give none.", "quantifier": "all triples of sites with integer coordinates and all circles; exact values, comparisons that may miss but not invent a difference", "why_tests_cant": "the existence tests reject most triples by partial tests of orientation, abscissa and direction; that no circle is lost must hold for every position of the sites", "anchors": ["include/boost/polygon/detail/voronoi_predicates.hpp: circle_existence_predicate, circle_formation_predicate, orientation_test"]}
{"id": "C73", "title": "The Voronoi sweep compares a new point correctly with a breakpoint", "statement": "Two sites whose arcs meet on the beach line at a height h are compared with a new point on the sweep line: the answer is true exactly if the point is above h. At the height h itself it is false, except if the lower site is a segment and the upper one a point; then it is true (the documented 'returns false' does not hold there). If both arcs belong to one segment, the answer is true exactly if the point is beyond the lower side. No root of a negative number is taken and nothing is divided by zero.", "quantifier": "all pairs of point and segment sites with integer coordinates, all new points, all heights at which their arcs cross; exact arithmetic", "why_tests_cant": "parabolas and lines meet at two heights and the code picks one by a dozen quick tests of signs and directions; that the right one is picked must hold for all coordinates", "anchors": ["include/boost/polygon/detail/voronoi_predicates.hpp: distance_predicate"]}
{"id": "C74", "title": "The Voronoi sweep finds the arc above a new site", "statement": "At a site event the search in the beach line ends at the right place, whatever the shape of the search tree: every bisector before the place that is found is at most as high, on the sweep line, as the new site, and every bisector from there on is at least as high. This includes bisectors of sites that start on the same sweep line and the two sides of a segment. The new bisectors compare with their neighbours, and among themselves, consistently with that place, and of two compared nodes exactly one is less. A segment that starts at the point inserted last goes into the arc of that point.", "quantifier": "all beach lines with heights in order, all search trees, all new point and segment sites; exact arithmetic", "why_tests_cant": "the comparison mixes distances, indices and heights ('these checks were evaluated experimentally'); that it never contradicts the order of the beach line must hold for all beach lines and tree shapes", "anchors": ["include/boost/polygon/detail/voronoi_predicates.hpp: node_comparison_predicate", "include/boost/polygon/voronoi_builder.hpp: voronoi_builder::process_site_event, insert_new_arc"]}
{"id": "C75", "title": "Simplifying a polygon removes only vertices near the outline", "statement": "simplify returns the number of vertices it removed. Its result is empty or has at least three vertices, taken from the source in their order around it, and is closed if the source is closed. The vertices go one after the other; each is, when it goes, within the threshold of the line through its neighbours, or has equal neighbours. Every vertex of the result has two different neighbours and is farther than the threshold from one of them; if its neighbours have the same y or lie on a line of slope one it is farther than the threshold from the segment between them. The documented rule (a vertex goes exactly if it is within the threshold of the segment between its neighbours) is false in both directions.", "quantifier": "all non-empty vertex lists (open or closed, of any shape) and all thresholds; exact arithmetic", "why_tests_cant": "passes are repeated until nothing changes, every removal changes the neighbours that later tests see, and the count is kept in an unsigned number that is decremented for closed lists", "anchors": ["include/boost/polygon/detail/polygon_simplify.hpp: simplify", "include/boost/polygon/polygon_set_concept.hpp: simplify"]}
{"id": "C76", "title": "Convolving two polygon sets gives their Minkowski sum", "statement": "For two polygon sets that give simple polygons with holes, of any shape, the convolution (used to resize with rounded corners) covers a place exactly if it is the sum of a place in a polygon of the first set and a place in a polygon of the second set, edges and limits included: holes that are wide enough stay open, exactly where nothing is covered, and narrower ones close. This holds at every place off the edges of the inserted figures, and for the polygons formed from the result at the distance from these edges that snapping to the grid needs. No first point of an empty polygon is read, each edge of a figure is an edge of one operand moved by a vertex of the other, and the result is defined if areas fit into long double.", "quantifier": "all lists of simple polygons with holes (winding 0 or 1 off the edges), all places in the real plane", "why_tests_cant": "the figures are one parallelogram for each pair of edges plus a single moved copy of each polygon; that these leave no gap and close no hole by mistake is a topological fact about all pairs of polygons", "anchors": ["include/boost/polygon/detail/minkowski.hpp: minkowski_offset::convolve_two_polygon_sets, convolve_two_point_sequences, convolve_two_segments", "include/boost/polygon/polygon_set_data.hpp: polygon_set_data::resize"]}
{"id": "C77", "title": "Inserting shapes into a set of 45-degree polygons adds exactly their region", "statement": "Inserting a polygon with horizontal, vertical and diagonal edges, with or without holes, into a polygon_45_set_data adds to the number of times each place of the plane is covered the winding number of the polygon (whatever the direction of its rings, and with repeated points); inserted as a hole it subtracts it. The same holds for rectangles, other 45-degree sets, and rectilinear sets of either scan orientation that are not inserted as a hole. What was in the set stays, every vertex keeps balanced counts, and the flag that a set is rectilinear is never set wrongly, so that the boolean operators may continue with rectilinear data. Inserting a rectilinear set, or a single vertex, as a hole does not subtract it: the flag is_hole is not honoured there.", "quantifier": "all polygons with holes with 45-degree edges, all rectangles and sets, all states of the set, all places in the real plane", "why_tests_cant": "the counts at vertices encode the region only through their sums along all half lines; a test looks at some shapes and some places", "anchors": ["include/boost/polygon/polygon_45_set_data.hpp: polygon_45_set_data::insert, insert_clean, insert_vertex_sequence, insert_dispatch, characterizeEdge45, insert_vertex_half_edge_45_pair, insert_rectangle_into_vector_45, applyAdaptiveUnary_", "include/boost/polygon/detail/polygon_45_formation.hpp: Vertex45CountT"]}
{"id": "C78", "title": "Boolean operations on 45-degree sets cover exactly the result, once", "statement": "For two sets of polygons with horizontal, vertical and diagonal edges, in whatever order their vertices are stored, union, intersection, difference and symmetric difference of polygon_45_set_data give a set that covers a place of the plane exactly once if the operation says that it is covered and not at all otherwise, unless the sweep gives up because two diagonal edges cross at half a grid unit; clean, self_intersect and self_xor likewise for what is covered at all, more than once, an odd number of times. The vertices of the result are in strict order, every edge that begins ends, so that the result is again a legal operand, and the set is flagged rectilinear exactly if no diagonal edges are left. The sweep never searches its status structure while it is out of order and always terminates. Sets built by inserting polygons, rectangles and sets are legal operands.", "quantifier": "all pairs of sets of 45-degree polygons with integer coordinates, overlapping and self-crossing ones included, all operations, all places in the real plane", "why_tests_cant": "what the sweep does at a crossing depends on all edges through the point, vertical edges below it and crossings scheduled before; the possible constellations of edges are unbounded", "anchors": ["include/boost/polygon/detail/boolean_op_45.hpp: boolean_op_45::Scan45, Scan45ElementT, Count1, Count2", "include/boost/polygon/polygon_45_set_data.hpp: applyBoolean45OpOnVectors, applyUnary45OpOnVectors, applyAdaptiveBoolean_, applyAdaptiveUnary_, operator&=, operator-=, operator^=, clean, self_intersect, self_xor"]}
{"id": "C79", "title": "Boolean operations on 45-degree sets cannot fail on suitable or doubled coordinates", "statement": "If at every end of a diagonal edge the coordinates are both even or both odd, the boolean operations of polygon_45_set_data and clean, self_intersect and self_xor never hit a crossing beside the grid and give the exact result. In particular, when an operation gives up and is repeated with doubled coordinates, the repetition never gives up and computes the doubled exact result, for all operands. scale_up multiplies the region by the factor. snap() brings every set into such a form, moves vertices by at most one unit and only those with diagonal edges and mixed parity, and the set stays a boundary of bounded regions if no vertex has a diagonal, a vertical and a third kind of edge; at such vertices (a square that touches a triangle) it tears the boundary, and it can bring the vertices out of order without marking the set as unsorted.", "quantifier": "all 45-degree sets with integer coordinates, all operations, all scaling factors, all places in the real plane", "why_tests_cant": "whether any pair of diagonals among all edges that become neighbours in the sweep meets at half a unit depends on parities along the whole sweep", "anchors": ["include/boost/polygon/polygon_45_set_data.hpp: applyAdaptiveBoolean_, applyAdaptiveUnary_, scale_up_vertex_45_compact_range, scale_up, snap, snap_vertex_45", "include/boost/polygon/detail/boolean_op_45.hpp: boolean_op_45::Scan45::scheduleCross1_"]}
{"id": "C80", "title": "45-degree sets: boolean operations whichever way they are computed, and comparison", "statement": "The boolean operators and clean, self_intersect and self_xor of polygon_45_set_data give exactly what they say at every place of the plane, both when the sets are marked as rectilinear and are computed as rectilinear sets and when they go through the sweep for diagonal edges; the result is again the boundary of bounded regions, in order and rightly marked, and only the sweep for diagonal edges can throw. The rectilinear self_xor needs that no place is covered a negative number of times: with a hole outside of all polygons the two ways differ. operator== never calls sets equal that cover different places, and is exact for two rectilinear sets; it can call sets different that cover the same places, because the two ways of computing write down a corner where two squares touch differently. empty() does not scan the set, unlike documented, so a set whose holes cancel its polygons is not empty.", "quantifier": "all sets with int coordinates built from 45-degree polygons, rectangles and holes, all operations, all places of the real plane", "why_tests_cant": "which way is taken depends on the history of the sets, and the results must agree for all of them", "anchors": ["include/boost/polygon/polygon_45_set_data.hpp: applyAdaptiveBoolean_, applyAdaptiveUnary_, operator==, empty, clean, self_intersect, self_xor", "doc/gtl_polygon_45_set_concept.htm"]}
{"id": "C81", "title": "45-degree sets: extents and canonical data", "statement": "extents of a polygon_45_set_data gives a rectangle that contains everything the set covers, and returns false only if nothing is covered; it is the smallest such rectangle with integer corners. The vertices of a cleaned set that is not rectilinear are determined by what it covers, so that operator== between such sets is exact, except for vertices at which all counts cancel.", "quantifier": "all sets with int coordinates built from 45-degree polygons, rectangles and holes", "why_tests_cant": "a vertex that is left over or missing in the cleaned data shows only in special constellations of crossing edges", "anchors": ["include/boost/polygon/polygon_45_set_data.hpp: extents, operator==, clean", "doc/gtl_polygon_45_set_concept.htm"]}
{"id": "C82", "title": "45-degree sets: what happens when edges cross beside the grid", "statement": "The boolean operators and clean, self_intersect and self_xor of polygon_45_set_data never fail for sets of bounded regions: where the sweep throws because two diagonals cross at half coordinates the operation is repeated with doubled coordinates, which ends well. The result then is exact outside of the unit squares around the crossings beside the grid; each such square is covered as a whole or not at all, by the way the polygon turns there; the error data covers exactly these squares, and the result has grid points only and is a boundary in order. Without an exception the error data is that of the operands; after one the error data of the operands is lost.", "quantifier": "all pairs of sets built from 45-degree polygons, all operations, all places of the real plane, all ways to sort equal vertices, all rings whose corners are at the vertices of the doubled result", "why_tests_cant": "the crossings beside the grid can be anywhere and any number, and rounding must not move any other edge", "anchors": ["include/boost/polygon/polygon_45_set_data.hpp: applyAdaptiveBoolean_, applyAdaptiveUnary_, get_error_rects, scale_down_vertex_45_compact_range_blindly", "doc/gtl_polygon_45_set_concept.htm: get_error_data"]}
{"id": "C83", "title": "45-degree sets: what is remembered between operations", "statement": "polygon_45_set_data puts off sorting and cleaning: in every history of insertions, boolean operators, clean, self_intersect, self_xor, scale_up and clear, the marks are right, that is a set marked as rectilinear has no diagonals, one marked as sorted is in order and one marked as clean covers nothing twice. So clean() gives what was covered, once, and does nothing a second time, the operators are exact whether or not their operands were cleaned before, and the error data of the operands is kept. Four functions break this: a set filled by get_error_data is neither sorted nor marked as unsorted, set(value) keeps the mark for rectilinear, scale_up does not scale the error data, and assigning a rectangle keeps the old error data and the mark for diagonals.", "quantifier": "all finite histories of these operations over any number of sets with int coordinates, all ways to sort equal vertices", "why_tests_cant": "the marks depend on the whole history of a set and of its operands", "anchors": ["include/boost/polygon/polygon_45_set_data.hpp: clean, sort, dirty, sorted, is_manhattan, insert, operator&=, operator-=, operator^=, self_intersect, self_xor, scale_up, get_error_data, set, operator=", "doc/gtl_polygon_45_set_concept.htm"]}
{"id": "C84", "title": "Numbers with an extended exponent are as accurate as doubles that cannot overflow", "statement": "extended_exponent_fpt<double>, in which the Voronoi predicates evaluate their expressions, keeps a value as m * 2^e with 1/2 <= |m| < 1 or m = 0. Making one from a double and negating are exact; +, -, *, / and sqrt give the exact result rounded to the nearest number of 53 binary digits, as if exponents had no bounds, so with a relative error of at most 2^-53, with the right sign and zero exactly when the exact result is zero, whatever the sizes of the operands; is_pos, is_neg and is_zero tell the sign; d() is the correctly rounded double where doubles reach; division by zero and roots of negative numbers leave the numbers. The sum and the difference need that a right operand equal to zero does not have an exponent more than 54 above the one of the left operand: otherwise the left operand is lost, so 2^-100 + 0 is 0, 1 + (x - x) is 0 for large x, and 1*sqrt(1) + 0*sqrt(2^200) is 0. Exponents close to the largest int overflow.", "quantifier": "all such numbers with exponents between -10^9 and 10^9, all doubles", "why_tests_cant": "there are 2^64 doubles and as many exponents; the failing case needs a zero that remembers the exponent of what it came from", "anchors": ["include/boost/polygon/detail/voronoi_ctypes.hpp: extended_exponent_fpt, get_sqrt", "include/boost/polygon/detail/voronoi_robust_fpt.hpp: robust_sqrt_expr::eval2"]}
{"id": "C85", "title": "Big integers convert to floating point numbers with small error", "statement": "The big integers of the Voronoi builder (extended_int) convert to a double with an exponent (p), to a double (d) and to an extended_exponent_fpt. For every integer whose leading chunk is not zero the result differs from it by at most 3 * 2^-53 of its size, so it has the right sign and is zero only for zero; integers up to 2^53 are converted exactly. d() needs at most 31 chunks: 2^1024, which has 33 of the 64 chunks that the builder allows, becomes an infinity. An integer with leading chunks that are zero, as subtraction can leave, may lose its value: 2^128 - (2^128 - 5) is 5 but converts to 0.", "quantifier": "all big integers of any number of chunks up to ten million (31 for d)", "why_tests_cant": "the error is a sum of two roundings and a truncation, over integers of up to 2048 bits", "anchors": ["include/boost/polygon/detail/voronoi_ctypes.hpp: extended_int::p, extended_int::d, type_converter_fpt, type_converter_efpt"]}
{"id": "C86", "title": "Sums of one or two roots are accurate in the number types of the Voronoi builder", "statement": "The builder evaluates A*sqrt(B) and A0*sqrt(B0) + A1*sqrt(B1), for big integers with B >= 0, over doubles with an extended exponent. Without any assumption about the arithmetic, beyond IEEE doubles that round to nearest, the result of one term differs from the exact value by at most 12 * 2^-53 of it, and that of two terms by at most 21 * 2^-53, and both have the sign of the exact value. For two terms this needs that the second one is not zero unless the first is, and, when their signs differ, that both A*A*B fit in the big integers and that A0*A0*B0 - A1*A1*B1 keeps its leading chunks. The conditions matter: 1*sqrt(1) + 0*sqrt(2^200) evaluates to 0, and so does sqrt(2^128) - sqrt(2^128 - 5).", "quantifier": "all big integers of up to a million chunks of 32 bits that satisfy the conditions, at every magnitude and every combination of signs", "why_tests_cant": "the error bound is about the cancellation of nearly equal roots of integers with hundreds of bits, for which no test has exact values", "anchors": ["include/boost/polygon/detail/voronoi_robust_fpt.hpp: robust_sqrt_expr::eval1, robust_sqrt_expr::eval2", "include/boost/polygon/detail/voronoi_ctypes.hpp: extended_int, extended_exponent_fpt, type_converter_efpt"]}
