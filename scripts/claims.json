{
 "C01": [
  "proved",
  "P_Set90.v. Whole histories of calls refine an abstract machine over winding counts; coordinates are 32-bit with overflow as an outcome, counts unbounded."
 ],
 "C02": [
  "proved",
  "P_Set90.v. |, &, ^, - and &=, ^=, -= are pointwise; |= on unnormalised holes and the mixed-type view are wrong in the code (refuted)."
 ],
 "C03": [
  "proved",
  "P_Set90.v. == for equal scan orientation, equivalence() in general; == across orientations is refuted."
 ],
 "C04": [
  "proved",
  "P_Set90.v. Every identity of boolean expressions."
 ],
 "C05": [
  "proved",
  "P_RectForm.v. Reachable sets; the output is characterised completely (the set of maximal slabs, each once)."
 ],
 "C06": [
  "proved",
  "P_Set90.v (rectangles), P_Poly90.v (polygons with holes). The polygon theorem needs ring_ok; the three ways to violate it and the overflow of the area of huge polygons are refuted with witnesses."
 ],
 "C07": [
  "proved",
  "P_Set90.v."
 ],
 "C08": [
  "partial",
  "P_Set90.v. False of the code for normalised sets (refuted); holds for sets not normalised before."
 ],
 "C09": [
  "partial",
  "P_Set90.v. self_xor proved; self_intersect depends on an earlier const query (refuted), proved otherwise."
 ],
 "C10": [
  "proved",
  "P_Resize.v (bloat2, shrink2), P_ResizePoly.v (members bloat, shrink, resize and the directional forms) and P_Free90.v (the free functions), for every reachable set and every cell. shrink2 overflows near the ends of the coordinate range and shrink leaves negative counts (both refuted as findings; the covered region is right)."
 ],
 "C11": [
  "proved",
  "P_Set90.v (polygon sets), P_Poly.v (polygons, with boundary and inside)."
 ],
 "C12": [
  "proved",
  "P_Touch.v. Insert and extract for any list of reachable sets of one orientation and any graph; the code ignores the orientation of the inserted sets, so a mixture is refuted."
 ],
 "C13": [
  "proved",
  "property_merge_90 with any inputs (several may share a property; their windings add up), for every order std::sort may leave; result map starting empty. Also the keys, well-formedness of the stored sets, and a refutation for a result map that already holds a HORIZONTAL (default constructed) set under a key."
 ],
 "C14": [
  "proved",
  "get_max_rectangles (free function) in every reachable state of the 90 set and for every result std::sort may give on the leading edges: the output holds each maximal rectangle of the region exactly once and nothing else; the walk over the graph terminates and dereferences nothing invalid. Includes the order in which form_rectangles writes, on which the graph construction relies."
 ],
 "C15": [
  "proved",
  "P_Ivl.v. point-set semantics of all predicates; set() breaking low<=high and join_with of overlapping intervals are refuted"
 ],
 "C16": [
  "proved",
  "P_Ivl.v. each operation as a map of the point set, exactly when it is defined, and the round trips; move out of range and shrink of a narrow interval are refuted"
 ],
 "C17": [
  "partial",
  "P_Ivl.v, P_Rect.v. For each function exactly when it is defined, and its value then. The unrestricted claim is false of the code: center, distance_squared, manhattan_distance and area overflow (refuted)."
 ],
 "C18": [
  "partial",
  "P_Ivl.v, P_Rect.v. Least distances proved for intervals and rectangles; square_euclidean_distance overflows for far rectangles and euclidean_distance of rectangles casts the square to int (both refuted)."
 ],
 "C19": [
  "partial",
  "P_Rect.v. All predicates in both modes; intersect without touch is wrong for rectangles that only touch (refuted)."
 ],
 "C20": [
  "partial",
  "P_Rect.v. All but scale(), which uses one corner twice (refuted)."
 ],
 "C21": [
  "proved",
  "P_Iso.v"
 ],
 "C22": [
  "proved",
  "P_Iso.v. Unbounded coordinates. combine_axis_arrays and anisotropic scale() are wrong in the code (refuted)."
 ],
 "C23": [
  "partial",
  "P_Iso.v. invert() is proved; operator+= is false of the code (reads uninitialised variables), refuted."
 ],
 "C24": [
  "proved",
  "No signed overflow either (outcome Ok)."
 ],
 "C25": [
  "proved",
  "Also records that sharing two low ends is not abutment."
 ],
 "C26": [
  "partial",
  "Proved for non-degenerate segments, floating-point operations in exact arithmetic; the degenerate case is refuted, and end-point distances can overflow (both recorded as theorems)."
 ],
 "C27": [
  "proved",
  "P_Rect.v"
 ],
 "C28": [
  "proved",
  "P_Poly.v. long double area exact up to the stated bound; polygon_90 in long long."
 ],
 "C29": [
  "partial",
  "P_Poly.v. Proved unless the last x equals the first; refuted there (a coordinate is dropped)."
 ],
 "C30": [
  "partial",
  "P_Poly.v. Proved without edges of length zero; refuted with a vertex on a straight vertical edge."
 ],
 "C31": [
  "proved",
  "P_Poly.v. A polygon with one vertex position contains nothing, not even that position."
 ],
 "C32": [
  "partial",
  "P_Poly.v. Proved without holes; refuted with holes: the holes are never looked at."
 ],
 "C33": [
  "partial",
  "P_Poly.v, P_ScanBase.v. The floating point operations of compute_intersection are taken as exact. Edges that only touch may be missed by intersects, and an intersection on a vertical edge is rounded towards zero (refuted); int overflow near INT_MAX and for long edges (refuted)."
 ],
 "C34": [
  "partial",
  "P_XInt.v. Exact for canonical operands and for whole expressions in which no sum cancels more than 32 leading bits; in general refuted (2^64-(2^64-1)-5, INT_MIN)."
 ],
 "C35": [
  "partial",
  "P_XInt.v. Exact for canonical values; refuted for reachable non-canonical ones."
 ],
 "C36": [
  "proved",
  "P_Vor.v. On the bit patterns of all finite doubles."
 ],
 "C37": [
  "partial",
  "P_Vor.v. Three points: exact. Four differences: exact below 2^64, refuted beyond."
 ],
 "C38": [
  "proved",
  "P_Vor.v."
 ],
 "C39": [
  "proved",
  "P_Robust.v. Also the error bounds 4, 7, 16, 25 eps for every rounding, and the error tracking of robust_fpt; its strict readings are refuted."
 ],
 "C40": [
  "proved",
  "P_VD.v. For every outcome of the floating point decisions. The finished diagram: consistent if it has vertices, or for sites on a vertical line; merging of vertices under clustered and forest."
 ],
 "C41": [
  "proved",
  "P_VD.v. Colours above 59 bits lose their high bits (refuted)."
 ],
 "C42": [
  "proved",
  "P_Set90.v. Histories without holes; with holes refuted."
 ],
 "C43": [
  "proved",
  "center can overflow; the exact condition is a theorem."
 ],
 "C44": [
  "proved",
  "P_Vor.v. For every sorted permutation; with overlapping segments refuted."
 ],
 "C45": [
  "proved",
  "P_Poly.v."
 ],
 "C46": [
  "proved",
  "P_Poly.v."
 ],
 "C47": [
  "proved",
  "P_Poly.v. polygon_90 without edges of length zero."
 ],
 "C48": [
  "partial",
  "P_Poly.v. Every edge but the first; all edges if the first is horizontal or vertical; refuted in general."
 ],
 "C49": [
  "proved",
  "P_VD.v. The geometry is a parameter. std::map hints are taken to be right."
 ],
 "C50": [
  "proved",
  "P_VD.v. A degenerate segment may make a point cell claim a segment (refuted)."
 ],
 "C51": [
  "partial",
  "P_Touch.v. The polygons are those of get (C52). An argument that is clean but unsorted is not handled by the code, and the result is marked clean without being merged, so that a comparison with an equal set fails (both refuted)."
 ],
 "C52": [
  "proved",
  "P_PolyForm.v. Reachable sets, both orientations, with and without holes; no vertex threshold. Re-insertion may overflow in the area of a huge polygon (bound stated)."
 ],
 "C53": [
  "proved",
  "P_Free90.v. That the area always fits is refuted for sets wider than 2^31."
 ],
 "C54": [
  "proved",
  "P_Free90.v. The polygons are those of get into polygons without holes (C52). Overflow only if a polygon or its bloat leaves the range."
 ],
 "C55": [
  "partial",
  "P_Free90.v. Exact characterisation; the lower limits of width and height are exclusive in the code, so the inclusive statement is refuted."
 ],
 "C56": [
  "proved",
  "P_Snap.v. The floating point operations of compute_intersection are taken as exact. Overflow outside of the stated limits is refuted as a separate finding; pieces of overlapping segments are repeated."
 ],
 "C57": [
  "proved",
  "P_Snap.v"
 ],
 "C58": [
  "proved",
  "P_Snap.v"
 ],
 "C59": [
  "proved",
  "P_Snap.v"
 ],
 "C60": [
  "proved",
  "P_Arb.v"
 ],
 "C61": [
  "proved",
  "P_Arb.v"
 ],
 "C62": [
  "proved",
  "P_Arb.v"
 ],
 "C63": [
  "proved",
  "P_Arb.v"
 ],
 "C64": [
  "partial",
  "P_Arb.v. Coverage and form of the result are proved; that a second clean changes nothing and that simple polygons are kept is refuted."
 ],
 "C65": [
  "partial",
  "P_Arb.v. Proved except that a set equals its cleaned form, which is refuted."
 ],
 "C66": [
  "partial",
  "P_Arb.v. Proved for coordinates below 2^30; false for the least int as x coordinate and for edges of 2^31 and longer."
 ],
 "C67": [
  "proved",
  "P_ArbMerge.v"
 ],
 "C68": [
  "partial",
  "P_ArbConn.v; exact for horizontal and vertical edges, up to two units for other edges; refuted: extraction without any edge is undefined (C68_empty_refuted)"
 ],
 "C69": [
  "proved",
  "P_ArbForm.v. The vertices are not required to be distinct: a ring may touch itself. Which polygon a hole is given to is not part of the claim."
 ],
 "C70": [
  "proved",
  "P_ArbForm.v. The rings are counted together, each in the direction in which it is returned."
 ],
 "C71": [
  "proved",
  "exact arithmetic in place of robust_fpt, extended exponents and the recomputation of inaccurate values; the error bounds of the evaluators are C39"
 ],
 "C72": [
  "proved",
  "the converse (no circle that does not exist) is proved for three points only; the code does not test it for segments"
 ],
 "C73": [
  "proved",
  "the documented answer 'false' at the height of the crossing is refuted for a segment below a point"
 ],
 "C74": [
  "proved",
  ""
 ],
 "C75": [
  "partial",
  "the documented rule is refuted in both directions; proved is what holds: the count, the order, the closing vertex, distance to the line for removed vertices, distance to one neighbour for remaining ones, and the documented rule for neighbours at the same height or on a line of slope one"
 ],
 "C76": [
  "proved",
  "the polygons of the operands are assumed simple (each ring goes around each place off its edges once or not at all, and so does the polygon with its holes); that get returns such polygons is not proved here"
 ],
 "C77": [
  "proved",
  "the documented meaning of is_hole fails for polygon_90_set_data and single vertices: two refutations. Counts are unbounded integers"
 ],
 "C78": [
  "proved",
  "The exception for crossings beside the grid is an outcome of the model; the code that catches it (retry at doubled coordinates) and the branch for two rectilinear sets are not modelled. The two vectors are any sorted permutations of the operands. Counts and coordinates are unbounded. C78_boolean, C78_self: every result; C78_inserted: operands built by insertion are legal."
 ],
 "C79": [
  "proved",
  "C79_boolean, C79_self: no exception on suitable coordinates; C79_retry, C79_retry_self: the repetition at doubled coordinates succeeds and is exact; C79_scale_up; C79_snap with the condition it needs; C79_snap_refuted and C79_snap_order_refuted show the two defects of snap that the statement names. What the code does with the doubled result afterwards (error rectangles, scaling down) is not modelled."
 ],
 "C80": [
  "proved",
  "C80_boolean, C80_self: both ways of computing; C80_equal_sound, C80_equal_rectilinear; C80_self_xor_refuted, C80_equal_refuted and C80_empty_refuted show the three defects that the statement names. The flags unsorted_ and dirty_ are not modelled, the sets are as after an insertion."
 ],
 "C81": [
  "partial",
  "C81_extents_enclose: complete; C81_determined: the vertices are determined by the coverage up to vertices whose counts all cancel. C81_extents_smallest_partial and C81_equal_partial suppose, for sets that are not marked as rectilinear, that the sweep left no such vertex. Missing: that such vertices are left only where boundaries cross, which does not depend on how the set was built."
 ],
 "C82": [
  "proved",
  "C82_squares, C82_retry, C82_retry_self, C82_boolean, C82_self; C82_error_data_refuted is the last sentence. That the operation ends well holds for any rings; the rest supposes that the rings formed from the doubled result have corners at its odd vertices and turn the same way where they meet there (rings_fit), because the formation of polygons is an argument of the model. The order is that of the vertices whose counts do not all cancel."
 ],
 "C83": [
  "proved",
  "C83_clean, C83_self, C83_boolean, C83_history; C83_get_error_data_refuted, C83_set_refuted, C83_scale_up_errors_refuted and C83_assign_refuted are the four defects that the statement names. Histories go on as long as the sweep does not throw; what comes after that is C82."
 ],
 "C84": [
  "proved",
  "C84_make, C84_opp, C84_sign, C84_plus, C84_minus, C84_mult, C84_div, C84_sqrt, C84_d, C84_special; C84_zero_above says what happens outside the condition of + and -, and C84_plus_zero_refuted, C84_cancel_refuted, C84_roots_refuted and C84_exponent_refuted are the defects that the statement names."
 ],
 "C85": [
  "proved",
  "C85_pair, C85_efpt, C85_double; C85_double_refuted and C85_cancel_refuted are the defects that the statement names."
 ],
 "C86": [
  "proved",
  "C86_eval1, C86_eval2; C86_zero_term_refuted and C86_cancel_refuted show that the conditions are needed."
 ]
}