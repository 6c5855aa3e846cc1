# Formal model of boostorg/polygon in Rocq (Coq 8.16.1)

The source is read as text from `/repo/include/boost/polygon`; nothing of it is
compiled or run. Every definition of the model cites file and lines.

## Conventions

* Coordinates are unbounded integers (`Z`) unless the property is about
  overflow. Where overflow matters the C++ arithmetic is written with explicit
  checked operations (signed overflow is undefined behaviour and is a distinct
  outcome `None`) or explicit wrap-around (`mod 2^64` for unsigned).
* Undefined behaviour (signed overflow, out-of-bounds array index, read of
  uninitialised storage, dereference of `end()`) is a distinct outcome of the
  model, never silently totalised.
* Loops are structural recursion over lists, or carry explicit fuel and return
  an error when it runs out; theorems are stated about non-error results and
  show that the fuel is sufficient.
* `std::map`/`std::set` are strictly sorted association lists; iterators are
  keys (None for end()), so that erasing other elements does not invalidate
  them; using an iterator whose key is gone is undefined behaviour.
* `std::sort` is an arbitrary function returning a sorted permutation, or a
  concrete stable insertion/merge sort where the result does not depend on it.
* Specifications are in small separate files (`*Spec.v`) which do not mention
  the model. Property theorems are in files `P_*.v` that contain nothing else
  than statements closed by `exact`, examples that the hypotheses are
  satisfiable, and `Print Assumptions`.
* A property which the code violates is stated and its negation is proved with
  a concrete witness (`*_refuted`); the strongest true variant is proved too.

## Plan per property

| id | modelled | method |
|----|----------|--------|
| C01 | `applyBooleanOr` over the map scan line (`BooleanOp<Unit,int>`), `clean`, `sort` | invariant of the scan line: the map is the running per-row count; induction over columns and vertices; region = prefix sum > 0 |
| C02 | `applyBooleanBinaryOp` with the four functors, the same scan line instantiated with pairs of counts | generic theorem for any count monoid and evaluation function, then four instances |
| C03 | `operator==` on cleaned data, canonical output shape | uniqueness of the canonical vertex list of a region |
| C04 | consequence of C02 and C03 | pointwise boolean algebra + uniqueness |
| C05 | `ScanLineToRects::processEdge`, `form_rectangles` | invariant of the set of open rectangles |
| C06 | rectangle and polygon_90 vertex iterators | telescoping sums over the vertex cycle |
| C07 | `move`, `transform`, `scale_up` on vertex data | change of variables in the prefix sums |
| C08 | `scale_down`, `scale`, `empty` | counterexample by computation; repaired statement with re-cleaning |
| C09 | `self_xor`, `self_intersect` | instances of the generic scan line |
| C10 | `bloat2`, `shrink2`; `bloat`, `shrink`, `resize` on the polygons of `get` | region algebra over the rectangles of C05; for the polygon based functions: the winding number of a curve with moved edges around a cell is the number of components of the curve's region in the box of the cell minus its holes there (an Euler characteristic, counted cell by cell), removal of colinear points keeps windings |
| C11 | `extents` of sets and polygons | induction, minimality |
| C12 | `touch_90_operation` | scan line invariant |
| C13 | `merge_scanline` | scan line invariant |
| C14 | `MaxCover`, `get_max_rectangles` | graph of adjacent slabs; invariant of the walk with its stack; maximality from uniqueness of slabs |
| C15, C16 | all of `interval_concept.hpp` | linear arithmetic over all integers |
| C17 | checked int32/int64 versions | exact characterisation of the overflow-free inputs; counterexamples |
| C18 | distance functions | minimum characterisation |
| C19, C20 | `rectangle_concept.hpp` | product of intervals; counterexamples for `intersect` without touch, `scale`, `euclidean_distance` |
| C21, C22, C23 | `isotropy.hpp`, `transform.hpp` | case analysis on the finite codes, coordinates universally quantified |
| C24, C25 | `segment_concept.hpp`, uint64 arithmetic explicit | bounds + nonlinear arithmetic; intersection against rational parameters |
| C26 | distance numerators and denominators as exact rationals | degenerate counterexample |
| C27 | `point_concept.hpp`, `point_data.hpp` | laws |
| C28 | `point_sequence_area`, `winding` | induction on the vertex list |
| C29 | the two iterators as list functions | induction |
| C30, C31 | the two `contains` loops | induction over the edge cycle |
| C32 | `is_manhattan`, `is_45` | induction; counterexample for holes |
| C33 | `edge_utils`, `scanline_base` predicates: `on_above_or_below`, `intersects`, `intersects_grid`, `compute_intersection` | nonlinear arithmetic with bounds; real plane geometry |
| C34, C35 | `extended_int` on chunk lists | radix-2^32 value function, carries; counterexample for non-normalised differences |
| C36 | `ulp_comparison` on 64-bit patterns | mapping of bit patterns to the integers, Flocq for the link to doubles |
| C37 | `robust_cross_product` | uint64 wrap explicit; area bound for three points; counterexample for four |
| C38 | `event_comparison_predicate` on sites | case analysis |
| C39 | over `R`, with an arbitrary rounding of bounded relative error after each operation | relative error analysis, algebra with sign splits (uses the axioms of the real numbers of the standard library) |
| C40 | heap of half-edge records | invariants by induction over histories |
| C41 | bit operations on words | `Z` bit lemmas |
| C42 | histories of calls with const queries added or removed | simulation between histories |
| C43 | the rest of `segment_concept.hpp` | linear arithmetic, overflow characterised |
| C44 | `init_sites_queue`, removal of duplicates | sorted permutations |
| C45, C46, C47 | `perimeter`, `assign(rect)`, `convolve`, `move`, `transform`, `scale_up`, `scale_down` of polygons | induction over vertex lists |
| C48 | `snap_to_45`, `snap_point_vector_to_45` | invariant along the vertex list; counterexample for the first edge |
| C49 | `voronoi_builder::construct` | beach line invariant, for every outcome of the floating point decisions |
| C50 | cell categories | invariant over the sweep |
| C51 | `interact` | reduction to C12 and C52 |
| C52 | `detail/polygon_formation.hpp` (`ScanLineToPolygonItrs`, `ActiveTail`) on a heap of chains | loop invariant over the rows of a column and over the columns: the windings of the open chains are a balanced sequence on the scan line; a chain has the region on its left or right by the parity of its place in that sequence |
| C53 | free function `area` of `polygon_90_set_concept.hpp` | the rectangles tile the region (C08/C09); sum of their cells |
| C54 | free functions `bloat`, `self_intersect`, `grow_and` | the count of a cell is the number of grown polygons that contain it |
| C55 | free function `keep` | C52, area and extents of each polygon |
| C56 | `intersect_segments`, `validate_scan` with its bins, `segment_intersections` | a hot point is an end or a rounded intersection; invariant of the loops: the set of a segment is the set of hot points whose unit square it passes. Noding: move the segments continuously to the grid; a first contact would be at an end point, because a link passes no other hot square |
| C60 | `scanline` of `scan_arbitrary.hpp` and the output functor of the boolean operations | the scan line map is ordered by height just right of x; column by column, the running counts of the properties are the depths of the plane; Green's theorem on a column for the vertical edges |
| C61, C62 | `arbitrary_boolean_op::execute` on the pieces of C56 | C60 on the pieces; the pieces of a closed curve are closed; the depth changes only where a curve passes while it is deformed to its pieces |
| C63 | `polygon_set_data::insert` | induction over rings and holes |
| C64, C65 | `clean`, `==` | C61 and C62; a set of closed curves of depth 0 has no edges |
| C66 | the same with checked int arithmetic | C61, C63; counterexamples |
| C67 | `property_merge` of `scan_arbitrary.hpp`: insertion with properties, the map of results | as C61 and C62, with "the covering properties are those of K" in the place of the boolean function, for every key K |
| C68 | `connectivity_extraction` of `polygon_set_data.hpp`, `arbitrary_connectivity_extraction` | the map of points holds, at every vertex, the properties of the edges that end there (the scan goes column by column); two regions touch if and only if edges of both end in one vertex: the depth is constant in a box without edges, and edges meet only in common ends |
| C69, C70 | `polygon_arbitrary_formation` of `detail/polygon_arbitrary_formation.hpp`, on a heap of chains of vertices, `get` into polygons with holes | around a vertex covered and uncovered sectors alternate, so the edges that end and begin there pair up; invariant of the vertices of a column: the edges used so far are the steps of all chains and rings, the ends of the open chains are the edges on the scan line. The winding of the rings is the depth of the edges |
| C71, C72 | the circle functors (exact and lazy), `circle_existence_predicate` and `circle_formation_predicate` of `detail/voronoi_predicates.hpp`, in exact arithmetic (`VCircleModel.v`) | `VCircleGeo.v`: the unknown centre satisfies the equations of the three sites, the formulas solve them, and the sign of the root is the sense of rotation; `VCircleSeg.v`: the nested roots of `pss`; `VCircleExist.v`: points of a circle in convex position, so a test that fails would put a site on the wrong side of a chord |
| C73 | `distance_predicate` of `detail/voronoi_predicates.hpp`, in exact arithmetic (`VArcModel.v`) | `VArcSpec.v`: arcs as the places as far from the site as from the sweep line, breakpoints as the heights where one arc takes over; `VArcProofs.v`: the difference of the distances is a quadratic function of the height, the quick tests are the sign of its slope |
| C74 | `node_comparison_predicate` and the search of `process_site_event` in a binary search tree of any shape (`VNodeModel.v`) | `VNodeSpec.v`: the heights at which sites give way to each other on the sweep line; `VNodeProofs.v`: C73 for sites before the sweep line, the heights themselves for sites on it, then induction on the tree |
| C75 | `simplify` of `detail/polygon_simplify.hpp`, with exact rational numbers and NaN for 0/0 (`SimplifyModel.v`) | `SimplifySpec.v`: distances from a segment and a line, polygons started elsewhere, the chain of polygons of the removals; `SimplifyProofs.v`: invariant of the pass (the ring of kept vertices and those still to see), the fixed point has no vertex that goes, a closed list loses a vertex so the count does not wrap |
| C76 | `detail/minkowski.hpp` lines 10-87 (`MinkModel.v`), on top of the models of `insert` and `get` | `MinkSpec.v`: the sum of regions (closures of insides), simple polygons; `MinkWind.v`: winding numbers are constant along segments that miss a ring; `MinkNest.v`: of two closed curves that do not meet and share an enclosed place, one encloses a base point of the other (first hit along a ray to the top); `MinkPara.v`: a parallelogram covers its places once; `MinkMain.v`: the theorem |
| C77 | `polygon_45_set_data.hpp` lines 115-149, 382-408, 464-632 (first overload of the insertion of a set), the conversion to rectilinear data in 1540-1550 and 1673-1680 (`Ins45Model.v`) | `Ins45Spec.v`: the depth that vertices with four counts give at a real place; `Ins45Proofs.v`: an edge is the difference of two half lines, the sum over the vertices telescopes to the winding number; `Ins45Cor.v`: polygons, rectangles, sets |
| C78 | `boolean_op_45.hpp` lines 17-190, 359-437, 512-877 (`Scan45Model.v`), `polygon_45_set_data.hpp` lines 1239-1455 (`Bool45Model.v`) | `Bool45Spec.v`: operations, boundaries; `Scan45Base.v`: the status in order just after a column, counts on a line; `Scan45Step.v`, `Scan45Process.v`: one vertex, one column; `Scan45Advance.v`: crossings; `Scan45Sweep.v`: the whole sweep keeps depths, lines and columns; `Bool45Proofs.v`: merging the operands and adding up the output; `Bool45Insert.v`: insertion gives legal operands |
| C79 | `polygon_45_set_data.hpp` lines 451-456, 664-689, 1180-1183, 1609-1613, 1722-1724 (`Bool45Model.v`), the sweep (`Scan45Model.v`) | `Snap45Spec.v`; `Scan45Even.v`: all diagonals in the status have even x + y, so the difference of two diagonals is even and nothing throws; `Snap45Proofs.v`: scaling, snapping moves a diagonal line by its intercept only |
| C80 | `polygon_45_set_data.hpp` lines 162-166, 190, 1534-1580, 1670-1703 (`Adapt45Model.v`), the rectilinear sets (`Set90Model.v`, `BoolOpModel.v`) and the sweep (`Scan45Model.v`) | `Bool45Spec.v`, `Adapt45Spec.v`; `Adapt45Proofs.v`: at every place a rectilinear set is covered as its cell in the rectilinear vertex data, whose operations are proved in `BoolOpProofs.v` and `Set90Proofs.v`; comparison by uniqueness of the canonical vertices; refutations by computing witnesses |
| C81 | `polygon_45_set_data.hpp` lines 162-166, 637-659 (`Adapt45Model.v`) | `Adapt45Eq.v`: the counts of a line left of a column are the jump of the coverage across it, so coverage determines the counts at every point; an edge outside of the rectangle has no ends, so its counts cancel |
| C82 | `polygon_45_set_data.hpp` lines 1457-1530, 1536-1538, 1582-1662, 1672, 1704-1782 (`Retry45Model.v`) on top of the sweep; the polygons formed from the doubled result are an argument | `Retry45Spec.v`; `Retry45Proofs.v`: a set all of whose vertices are even, and every function of the coverage of such sets, has no edge through points of mixed parity; inside a square the coverage is constant, so no odd vertex is left and halving is exact |
| C83 | `polygon_45_set_data.hpp` lines 30-240, 318-332, 540-632, 683-731, 1179-1236, 1534-1582, 1670-1703, with the flags and the error data (`Flags45Model.v`) | `Flags45Spec.v`; induction over histories in `P_Flags45.v`, from C78 and C80; refutations by computing witnesses |
| C84 | `detail/voronoi_ctypes.hpp` lines 71-224 over the IEEE doubles of Flocq, the exponent an int (`EfptModel.v`) | `EfptSpec.v`; `EfptProofs.v`: frexp and ldexp exact, relative errors of Flocq's rounding, a number more than 54 places below is less than half a unit (`EfptRound.v`: the operations round correctly with an unbounded exponent); witnesses computed |
| C85 | `detail/voronoi_ctypes.hpp` lines 457-485, 599-620 over the IEEE doubles of Flocq (`XConvModel.v`), on the big integers of `XIntModel.v` | `XConvSpec.v`; `XConvProofs.v`: in Horner's scheme only the additions round, the chunks left out are below 2^-64; witnesses computed |
| C86 | `detail/voronoi_robust_fpt.hpp` lines 438-455 on the concrete types: `SqrtExprModel.v` over `XIntModel.v`, `XConvModel.v`, `EfptModel.v` | `SqrtExprProofs.v`: with the correct rounding of C84 and the conversions of C85 the concrete evaluation computes what the real model of C39 computes, so its error bounds hold; witnesses computed |
| C57, C58, C59 | the same as C56 | the order of the points along the segment; convexity of the unit square |

Not expressible here: performance, memory use, template overload resolution,
exception safety of the containers.

## What is modelled, header by header

| header | modelled in | not modelled |
|--------|-------------|--------------|
| `isotropy.hpp` | `IsoModel.v`: directions, orientations, predicated_swap | concept dispatch, coordinate_traits (only the chosen types are used) |
| `transform.hpp` | `IsoModel.v` | scaling through `double` beyond exact values |
| `interval_concept.hpp`, `interval_data.hpp` | `IvlModel.v` | deprecated `scale(double)` |
| `point_concept.hpp`, `point_data.hpp`, `rectangle_concept.hpp`, `rectangle_data.hpp` | `RectModel.v` | `get_corner` (does not compile), distances that return a square root |
| `segment_concept.hpp`, `segment_data.hpp` | `SegModel.v` | rounding of the `double` distance (exact rationals instead) |
| `segment_utils.hpp`, `detail/scan_arbitrary.hpp` (`line_intersection`) | `SnapModel.v`: `intersect_segments`, `validate_scan`, `verify_scan` | `envelope_segments` |
| `detail/scan_arbitrary.hpp` (`scanline`, `arbitrary_boolean_op`), `less_half_edge` | `ArbModel.v` | |
| `detail/scan_arbitrary.hpp` (`property_merge`) | `ArbMergeModel.v` | the order of the keys of the result; merging into a map that is not empty; other types of properties than `int` |
| `polygon_set_data.hpp` (`connectivity_extraction`), `detail/scan_arbitrary.hpp` (`arbitrary_connectivity_extraction`) | `ArbConnModel.v` | the type of the graph; insertion into a graph that is not empty |
| `polygon_set_data.hpp`, `detail/polygon_set_view.hpp` | `ArbSetModel.v`: insertion of polygons, boolean operators, `clean`, `==` | the flags dirty_, unsorted_ and is_45_ (`clean` stands for the dirty case); extraction of trapezoids and of polygons without holes, resize, transformations |
| `detail/polygon_arbitrary_formation.hpp` (`scanline_base`) | `ScanBaseModel.v`: the predicates and `compute_intersection` | The floating point operations of `compute_intersection` are exact in the model |
| `detail/polygon_arbitrary_formation.hpp` (`polygon_arbitrary_formation`, `active_tail_arbitrary`) | `ArbFormModel.v` | `fractureHoles_` (polygons without holes), trapezoid formation, the order of the holes of a polygon |
| `polygon_traits.hpp`, `polygon_90_data.hpp`, iterators compact/points | `Poly90Model.v`, `PolyModel.v`, `PolyMapModel.v` | concept dispatch, `view_of` |
| `detail/iterator_geometry_to_set.hpp` | `Poly90Model.v` | |
| `detail/boolean_op.hpp` | `BoolOpModel.v` | `BooleanOp` beyond two dimensions |
| `polygon_90_set_data.hpp`, `polygon_90_set_concept.hpp`, `detail/polygon_90_set_view.hpp` | `Set90Model.v`, `ResizeModel.v`, `ResizePolyModel.v`, `Free90Model.v` | what is listed as pending in `MANIFEST.json` |
| `detail/rectangle_formation.hpp` | `RectFormModel.v` | |
| `detail/max_cover.hpp` | `MaxCoverModel.v` | |
| `detail/polygon_90_touch.hpp` | `TouchModel.v` | |
| `detail/property_merge.hpp` | `PropMergeModel.v` | the parts used only by `property_merge_45` |
| `detail/voronoi_ctypes.hpp` | `XIntModel.v` (extended_int), `VorModel.v` (ulp_comparison), `EfptModel.v` (extended_exponent_fpt), `XConvModel.v` (conversions), `SqrtExprModel.v` (eval1 and eval2 on these types) | rounding modes other than the default; frexp of infinities and NaN (an outcome of its own) |
| `detail/voronoi_robust_fpt.hpp` | `RobustModel.v` (robust_fpt, robust_dif, robust_sqrt_expr over the reals with rounding) | overflow, underflow and NaN beyond division by zero and roots of negative numbers |
| `detail/voronoi_predicates.hpp` | `VorModel.v` (orientation, site order), `VCircleModel.v` (existence, circle formation, in exact arithmetic), `VArcModel.v` (distance), `VNodeModel.v` (node comparison), in exact arithmetic | rounding; in `VDModel.v` the search and the circles are parameters |
| `detail/polygon_simplify.hpp` | `SimplifyModel.v`, all of it | rounding of long double |
| `voronoi_builder.hpp`, `voronoi_diagram.hpp`, `detail/voronoi_structures.hpp` | `VorModel.v`, `VDModel.v` | coordinates of the vertices are what the geometry parameter says |
| `detail/polygon_formation.hpp` | `PolyFormModel.v` | the vertex threshold, freeing of memory, `ScanLineToPolygons` and other unused parts |
| `detail/minkowski.hpp` | `minkowski_offset` (`MinkModel.v`) | `polygon_set_data::resize` with arcs (`make_arc` uses floating-point trigonometry); that `get` returns simple polygons is a hypothesis of C76 |
| `polygon_45_set_data.hpp` | `Ins45Model.v`: insertion; `Bool45Model.v`: the boolean operations that go through the 45-degree sweep, `scale_up`, `snap`; `Adapt45Model.v`: the choice of the way to compute, comparison, `empty`, `extents`; `Retry45Model.v`: the retry after an exception, its error rectangles, scaling down and error data; `Flags45Model.v`: the flags and the error data between operations | the polygons formed during the retry (an argument of the model), overflow of counts, sets of other coordinate types, resize, get, transformations |
| `detail/boolean_op_45.hpp` | `Scan45Model.v` for int coordinates | the tests against the largest coordinate, the instance for double coordinates, overflow |
| the other `polygon_45_*`, `property_merge_45.hpp`, `gmp_override.hpp` | | not modelled, except where a line above says so |

Simplifications common to the models: coordinates are `int` (32 bits) where a
width matters and unbounded otherwise; counts are unbounded; memory allocation
succeeds; comparison functors and containers behave as the C++ standard says.

## Trusted base

* The kernel of Coq 8.16.1; `coqchk` re-checks every compiled file.
* The reading of the C++ into Gallina, cited definition by definition, and the
  rules of C++ it relies on (evaluation of integer expressions in 32 and 64
  bits, `std::map`, `std::set`, `std::vector`, `std::sort`).
* The specification files (`*Spec.v`) and the statements in `P_*.v`.
* Axioms. `Print Assumptions` is run on every property theorem in the `P_*.v`
  files; `scripts/assumptions.sh` prints the result. All but
  those of `P_Robust.v`, `P_ScanBase.v`, `P_Snap.v`, `P_Arb.v`, `P_ArbMerge.v`, `P_ArbConn.v`, `P_ArbForm.v`, `P_VCircle.v`, `P_VArc.v`, `P_VNode.v`, `P_Mink.v`, `P_Ins45.v`, `P_Bool45.v`, `P_Snap45.v`, `P_Adapt45.v`, `P_Retry45.v`, `P_Flags45.v`, `P_Efpt.v`, `P_XConv.v` and `P_SqrtExpr.v` print "Closed under the global context": no axiom is
  used. The theorems of C39 in `P_Robust.v`, of C33 in `P_ScanBase.v`, of C56 to C59
  in `P_Snap.v` and of C60 to C66 in `P_Arb.v`, of C67 in `P_ArbMerge.v`, of C68 in `P_ArbConn.v` and of
  C69 and C70 in `P_ArbForm.v`, C71 and C72 in `P_VCircle.v`, C73 in `P_VArc.v`, C74 in `P_VNode.v`, C76 in `P_Mink.v`, C77 in `P_Ins45.v`, C78 in `P_Bool45.v`, C79 in `P_Snap45.v`, C80 and C81 in `P_Adapt45.v`, C82 in `P_Retry45.v`, C83 in `P_Flags45.v`, C84 in `P_Efpt.v`, C85 in `P_XConv.v`, C86 in `P_SqrtExpr.v` are about the real numbers of the standard library and use its axioms:
  `ClassicalDedekindReals.sig_forall_dec`, `ClassicalDedekindReals.sig_not_dec`,
  `FunctionalExtensionality.functional_extensionality_dep` and
  `Classical_Prop.classic`. (The library module
  `Coq.ssr.ssrunder`, loaded by `ZifyBool`, declares the parameters
  `Under_rel.*` by a sealed module; `coqchk` lists them, no theorem uses them. In the same way
  `Coq.Reals.Rdefinitions` seals `RbaseSymbolsImpl.*` and `RinvImpl.*`, the
  construction of the real numbers, which `coqchk` also lists.)

## Findings: properties that are false of the code

Each is a theorem with a concrete witness, computed in the kernel.

| theorem | what goes wrong |
|---------|-----------------|
| `C02_or_assign_refuted` | `\|=` adds windings; a negative count left by a hole cancels a later insertion |
| `C42_with_holes_refuted` | with such negative counts a const query (which normalises) changes later results |
| `C02_mixed_view_refuted` | an operator between a geometry and a polygon set of the other scan orientation transposes one operand |
| `C03_orientation_refuted` | `==` is false for equal regions with different scan orientation |
| `C06_closing_edge_vertical_refuted`, `C06_closing_edge_horizontal_refuted`, `C06_repeated_corner_refuted` | inserting a polygon_90 whose ring repeats points or has a redundant closing edge gives another region |
| `C06_insert_large_polygon_refuted` | the area of a large polygon overflows and its winding is misjudged |
| `C08_empty_refuted`, `C08_equality_refuted` | after `scale_down`/`scale` the set is not normalised again: `empty` and `==` are wrong |
| `C10_insert_after_shrink_refuted` | `shrink` leaves negative counts where a narrow part turned inside out; a rectangle inserted there afterwards is lost |
| `C53_area_refuted` | `area` of a set that spans the int range overflows 64 bits |
| `C33_scan_intersects_touch_refuted` | `scanline_base::intersects` misses an edge that ends inside another one if the bounding boxes only touch |
| `C33_scan_round_down_refuted` | `compute_intersection` rounds an intersection on a vertical edge towards zero, all others downwards |
| `C33_scan_grid_at_limit_refuted`, `C33_scan_compute_intersection_long_refuted` | `intersects_grid` adds one to coordinates and `compute_lazy_intersection` subtracts coordinates as ints: overflow |
| `C56_at_limit_refuted`, `C56_long_refuted` | the same overflows in `intersect_segments`: segments with abscissa INT_MAX, or longer than INT_MAX |
| `C56_distinct_refuted` | pieces of overlapping segments are repeated in the result, so the documented postcondition holds only up to equal pieces |
| `C55_keep_inclusive_refuted` | `keep` drops a polygon whose width equals the minimum width (the limits of area and the maxima are inclusive) |
| `C10_shrink2_total_refuted` | `shrink2` of a set near the largest coordinate overflows (it adds a margin of 10) although the result is representable |
| `C09_self_intersect_after_query_refuted` | `self_intersect` does nothing after a const query has normalised the set |
| `C12_mixed_orientation_refuted` | connectivity extraction ignores the scan orientation of the inserted sets |
| `C13_reused_result_refuted` | property merge into a map that already holds a default-constructed set transposes it |
| `C15_join_overlapping_refuted` | `join_with` documents joining overlapping or touching intervals; some overlapping ones are not joined |
| `C15_set_invariant_refuted`, `C16_move_out_of_range_refuted`, `C16_shrink_invariant_refuted` | `set`, `move` and `shrink` can leave low > high |
| `C17_interval_center_refuted`, `C17_manhattan_overflow_refuted`, `C17_distance_squared_overflow_refuted`, `C17_rectangle_area_refuted`, `C43_center_overflow_refuted` | signed overflow of the measure functions |
| `C18_invalid_interval_refuted`, `C18_rectangle_square_distance_refuted`, `C18_rectangle_distance_refuted`, `C18_rectangle_distance_negative_refuted` | distances of rectangles overflow or are cast to `int` |
| `C19_intersect_open_refuted` | `intersect` without touch changes its argument although the rectangles only touch |
| `C20_scale_refuted` | `scale` of a rectangle uses one corner twice |
| `C22_combine_axis_arrays_refuted`, `C22_anisotropic_scale_refuted` | wrong composition of axis transformations; anisotropic scale |
| `C23_plus_undefined_refuted`, `C23_plus_composes_refuted` | `transformation::operator+=` reads uninitialised variables |
| `C25_abuts_shared_end_refuted` | segments that share both low ends do not abut |
| `C26_degenerate_refuted`, `C26_degenerate_segment_refuted`, `C26_overflow_refuted` | distance to a degenerate segment divides by zero; end point distance overflows |
| `C29_round_trip_refuted` | compact to points drops a coordinate if the last x equals the first |
| `C30_contains_90_refuted` | `contains` of a polygon_90 is wrong with a vertex in the middle of a vertical edge |
| `C32_is_45_holes_refuted` | `is_45` never looks at the holes |
| `C34_from_int_min_refuted`, `C34_arithmetic_refuted`, `C35_comparison_refuted`, `C35_sign_refuted` | extended_int does not normalise differences |
| `C37_four_differences_refuted` | the cross product wraps for differences near 2^32 |
| `C39_robust_fpt_linear_refuted`, `C39_robust_fpt_cancel_refuted` | the error carried by robust_fpt is only a first order bound |
| `C41_long_colour_refuted` | a colour of more than 59 bits loses its high bits |
| `C44_overlap_refuted` | overlapping segments survive the removal of duplicates |
| `C48_snap_refuted` | `snap_to_45` can leave the first edge at another angle |
| `C50_degenerate_refuted` | a segment of length zero may make a point cell claim a segment |
| `C51_unsorted_refuted` | `interact` with a set that is clean but unsorted |
| `C51_result_comparison_refuted` | `interact` marks its result clean without merging it: `==` with a set of the same region is false |
| `C64_keeps_simple_polygons_refuted` | the triangle (4,2), (5,2), (4,4) is removed by `clean`: its long edge passes the unit square at (4,2) and is bent to that corner |
| `C64_idempotent_refuted` | a clean set may lose all its edges if it is cleaned again |
| `C65_equal_to_cleaned_refuted` | a set may differ (`==`) from its own clean form |
| `C66_least_coordinate_refuted`, `C66_long_edge_refuted` | the scan of general polygon sets overflows at the least x coordinate (`--x_`) and for edges as long as 2^31 (differences in `int`) |
| `C68_empty_refuted` | connectivity extraction of general polygon sets without any edge reads the front of an empty vector |
| `C73_false_at_crossing_refuted` | the distance predicate answers true, not the documented false, for a point at the height where a segment's arc gives way to a point's arc above it |
| `C75_on_segment_kept_refuted` | `simplify` keeps a vertex in the middle of a straight edge: `f2` has `projy*acx` where `projy*acy` is meant, so the wrong one of the three distances is used unless the neighbours have the same y or lie on a line of slope one |
| `C75_spike_removed_refuted` | for the same reason `simplify` removes the tip of a spike that is far from the segment between its neighbours |
| `C75_corner_removed_refuted` | `simplify` removes a corner together with a vertex close to it if the list begins at the corner: the first vertex is tested, at the end of the pass, against its old second vertex, which may be gone already |
| `C77_rectilinear_set_as_hole_refuted` | inserting a `polygon_90_set_data` into a `polygon_45_set_data` with `is_hole` negates the counts of the horizontal edges only (the result of `count.invert()` is dropped): the vertices are unbalanced, and the rectilinear computation, which reads the vertical counts, adds the hole instead of removing it |
| `C77_vertex_as_hole_refuted` | inserting a vertex with `is_hole` inserts it unchanged, for the same reason |
| `C79_snap_refuted` | `snap()` moves a vertex with a diagonal, a vertical and a horizontal edge to the right, away from its vertical edge; a cleaned set of a square that touches a triangle is then covered -2 times at some place |
| `C79_snap_order_refuted` | `snap()` can bring the vertices out of order and does not set `unsorted_`, so the next boolean operation sweeps over vertices out of order |
| `C80_equal_refuted` | `operator==` of 45-degree sets reports sets as different that cover the same places: two squares that touch in a corner, against the same with a diamond inserted and taken away again. The documentation calls the cleaned data canonical |
| `C80_self_xor_refuted` | `self_xor` of a hole outside of all polygons gives nothing in a rectilinear set, but covers the hole as soon as there is a diagonal edge anywhere in the set |
| `C80_empty_refuted` | `polygon_45_set_data::empty()` is documented to scan the set because of subtractive regions, but only looks whether there are vertices |
| `C82_error_data_refuted` | the error data of the operands of a boolean operation on 45-degree sets is copied to the result, but `result.clear()` drops it when the sweep throws, so errors of earlier operations are forgotten just when a new one is made |
| `C83_get_error_data_refuted` | `get_error_data(p)` appends vertices to `p` without marking it as unsorted or dirty: `clean()` does nothing, and a boolean operation of `p` with a set that has diagonals runs the sweep on vertices that are not in order |
| `C83_set_refuted` | `set(value)` does not touch `is_manhattan_`: the vertices of a diamond given to a new set are taken for rectilinear ones, and `clean()` gives the empty set |
| `C83_scale_up_errors_refuted` | `scale_up` does not scale the error data |
| `C83_assign_refuted` | assigning a geometry object to a 45-degree set keeps the error data of the old content, and the mark that there are diagonals |
| `C84_plus_zero_refuted`, `C84_cancel_refuted`, `C84_roots_refuted` | `extended_exponent_fpt`: a zero keeps an exponent, and `a + 0`, `a - 0` compare exponents before they ask whether the right operand is zero: 2^-100 + 0, 1 + (x - x) and 1\*sqrt(1) + 0\*sqrt(2^200) are 0 |
| `C84_exponent_refuted` | `extended_exponent_fpt`: `exp_ + 54` overflows for exponents near the largest int |
| `C85_cancel_refuted` | `extended_int`: a difference may keep several leading chunks that are zero, and `p` converts the three leading chunks only: 2^128 - (2^128 - 5) converts to 0, as a double and as an extended exponent number |
| `C85_double_refuted` | `extended_int<64>::d` is infinite from 2^1024 on |
| `C86_zero_term_refuted` | `robust_sqrt_expr::eval2` on the builder's types: 1\*sqrt(1) + 0\*sqrt(2^200) is 0 |
| `C86_cancel_refuted` | `robust_sqrt_expr::eval2` on the builder's types: sqrt(2^128) - sqrt(2^128 - 5) is 0 |
