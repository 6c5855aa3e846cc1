{
 "claims": [
  {
   "property": "C01",
   "status": "proved",
   "theorems": [
    "C01_histories_refine_winding_machine",
    "C01_clean_keeps_region",
    "C01_hole_free_histories_refine_regions"
   ],
   "note": "P_Set90.v. Whole histories of calls refine an abstract machine over winding counts; coordinates are 32-bit with overflow as an outcome, counts unbounded."
  },
  {
   "property": "C02",
   "status": "proved",
   "theorems": [
    "C02_operators_pointwise",
    "C02_assignment_operators_pointwise",
    "C02_or_assign_refuted",
    "C02_mixed_view_refuted"
   ],
   "note": "P_Set90.v. |, &, ^, - and &=, ^=, -= are pointwise; |= on unnormalised holes and the mixed-type view are wrong in the code (refuted)."
  },
  {
   "property": "C03",
   "status": "proved",
   "theorems": [
    "C03_equal_iff_same_region",
    "C03_equivalence_iff_same_region",
    "C03_normal_form_unique",
    "C03_orientation_refuted"
   ],
   "note": "P_Set90.v. == for equal scan orientation, equivalence() in general; == across orientations is refuted."
  },
  {
   "property": "C04",
   "status": "proved",
   "theorems": [
    "C04_boolean_laws"
   ],
   "note": "P_Set90.v. Every identity of boolean expressions."
  },
  {
   "property": "C05",
   "status": "proved",
   "theorems": [
    "C05_get_rectangles",
    "C05_get_rectangles_sliced",
    "C05_free_get_rectangles",
    "C05_rectangles_roundtrip"
   ],
   "note": "P_RectForm.v. Reachable sets; the output is characterised completely (the set of maximal slabs, each once)."
  },
  {
   "property": "C06",
   "status": "proved",
   "theorems": [
    "C06_winding_rows",
    "C06_winding_start_direction",
    "C06_winding_area",
    "C06_insert_polygon",
    "C06_insert_polygon_no_overflow",
    "C06_insert_start_direction",
    "C06_rectangle_as_polygon",
    "C06_closing_edge_vertical_refuted",
    "C06_closing_edge_horizontal_refuted",
    "C06_repeated_corner_refuted",
    "C06_insert_large_polygon_refuted",
    "C06_insert_rectangle"
   ],
   "note": "P_Set90.v (rectangles), P_Poly90.v (polygons with holes). The polygon theorem needs ring_ok; the three ways to violate it and the overflow of the area of huge polygons are refuted with witnesses."
  },
  {
   "property": "C07",
   "status": "proved",
   "theorems": [
    "C07_move",
    "C07_move_no_overflow",
    "C07_transform",
    "C07_scale_up",
    "C07_scale_up_no_overflow"
   ],
   "note": "P_Set90.v."
  },
  {
   "property": "C08",
   "status": "partial",
   "theorems": [
    "C08_scale_down_image",
    "C08_empty_refuted",
    "C08_equality_refuted",
    "C08_unnormalised_partial"
   ],
   "note": "P_Set90.v. False of the code for normalised sets (refuted); holds for sets not normalised before."
  },
  {
   "property": "C09",
   "status": "partial",
   "theorems": [
    "C09_self_xor",
    "C09_self_intersect_partial",
    "C09_self_intersect_after_query_refuted"
   ],
   "note": "P_Set90.v. self_xor proved; self_intersect depends on an earlier const query (refuted), proved otherwise."
  },
  {
   "property": "C10",
   "status": "proved",
   "theorems": [
    "C10_free_bloat",
    "C10_free_shrink",
    "C10_free_resize",
    "C10_free_resize_no_overflow",
    "C10_free_bloat_axis",
    "C10_free_shrink_axis",
    "C10_free_bloat_direction",
    "C10_free_shrink_direction",
    "C10_free_resize_all",
    "C10_bloat2",
    "C10_shrink2",
    "C10_bloat2_shrink2",
    "C10_shrink2_total_refuted",
    "C10_bloat",
    "C10_shrink",
    "C10_bloat_shrink",
    "C10_shrink_bloat",
    "C10_bloat_direction",
    "C10_shrink_direction",
    "C10_resize",
    "C10_resize_no_overflow",
    "C10_insert_after_shrink_refuted"
   ],
   "note": "P_Resize.v (bloat2, shrink2), P_ResizePoly.v (members bloat, shrink, resize and the directional forms) and P_Free90.v (the free functions), for every reachable set and every cell. shrink2 overflows near the ends of the coordinate range and shrink leaves negative counts (both refuted as findings; the covered region is right)."
  },
  {
   "property": "C11",
   "status": "proved",
   "theorems": [
    "C11_polygon_extents",
    "C11_polygon_extents_inside",
    "C11_extents_of_set"
   ],
   "note": "P_Set90.v (polygon sets), P_Poly.v (polygons, with boundary and inside)."
  },
  {
   "property": "C12",
   "status": "proved",
   "theorems": [
    "C12_connectivity",
    "C12_symmetric_without_loops",
    "C12_rectangles",
    "C12_mixed_orientation_refuted"
   ],
   "note": "P_Touch.v. Insert and extract for any list of reachable sets of one orientation and any graph; the code ignores the orientation of the inserted sets, so a mixture is refuted."
  },
  {
   "property": "C13",
   "status": "proved",
   "theorems": [
    "C13_property_merge",
    "C13_keys",
    "C13_stored_sets_clean",
    "C13_union",
    "C13_reused_result_refuted"
   ],
   "note": "property_merge_90 with any inputs (several may share a property; their windings add up), for every order std::sort may leave; result map starting empty. Also the keys, well-formedness of the stored sets, and a refutation for a result map that already holds a HORIZONTAL (default constructed) set under a key."
  },
  {
   "property": "C14",
   "status": "proved",
   "theorems": [
    "C14_get_max_rectangles"
   ],
   "note": "get_max_rectangles (free function) in every reachable state of the 90 set and for every result std::sort may give on the leading edges: the output holds each maximal rectangle of the region exactly once and nothing else; the walk over the graph terminates and dereferences nothing invalid. Includes the order in which form_rectangles writes, on which the graph construction relies."
  },
  {
   "property": "C15",
   "status": "proved",
   "theorems": [
    "C15_contains_value",
    "C15_contains",
    "C15_intersects_touch",
    "C15_intersects_open",
    "C15_intersects_open_degenerate",
    "C15_boundaries_intersect",
    "C15_abuts",
    "C15_abuts_high",
    "C15_abuts_low",
    "C15_intersect_touch",
    "C15_intersect_open",
    "C15_intersect_points",
    "C15_intersect_valid",
    "C15_generalized_intersect",
    "C15_encompass",
    "C15_encompass_changed",
    "C15_encompass_value",
    "C15_join_with",
    "C15_join_overlapping_refuted",
    "C15_construct",
    "C15_get_half",
    "C15_set_invariant_refuted",
    "C15_less_irreflexive",
    "C15_less_transitive",
    "C15_less_total"
   ],
   "note": "P_Ivl.v. point-set semantics of all predicates; set() breaking low<=high and join_with of overlapping intervals are refuted"
  },
  {
   "property": "C16",
   "status": "proved",
   "theorems": [
    "C16_convolve_value_defined",
    "C16_convolve_value",
    "C16_deconvolve_value_defined",
    "C16_deconvolve_value",
    "C16_convolve_value_inverse",
    "C16_deconvolve_value_inverse",
    "C16_convolve_defined",
    "C16_convolve",
    "C16_deconvolve_defined",
    "C16_deconvolve",
    "C16_convolve_inverse",
    "C16_reflected_convolve_defined",
    "C16_reflected_convolve",
    "C16_reflected_deconvolve",
    "C16_reflected_inverse",
    "C16_move_defined",
    "C16_move",
    "C16_move_inverse",
    "C16_move_out_of_range_refuted",
    "C16_flip_defined",
    "C16_flip",
    "C16_flip_twice",
    "C16_bloat_defined",
    "C16_bloat",
    "C16_shrink_defined",
    "C16_shrink",
    "C16_shrink_invariant_refuted",
    "C16_bloat_shrink_inverse",
    "C16_bloat_direction",
    "C16_shrink_direction",
    "C16_scale_up_defined",
    "C16_scale_up",
    "C16_scale_down",
    "C16_scale_inverse"
   ],
   "note": "P_Ivl.v. each operation as a map of the point set, exactly when it is defined, and the round trips; move out of range and shrink of a narrow interval are refuted"
  },
  {
   "property": "C17",
   "status": "partial",
   "theorems": [
    "C17_interval_delta",
    "C17_interval_center_defined",
    "C17_interval_center",
    "C17_interval_center_refuted",
    "C17_point_distance_defined",
    "C17_point_distance",
    "C17_manhattan",
    "C17_manhattan_overflow_refuted",
    "C17_distance_squared",
    "C17_distance_squared_overflow_refuted",
    "C17_distance_squared_small",
    "C17_rectangle_delta",
    "C17_rectangle_perimeter",
    "C17_rectangle_guess_orientation",
    "C17_rectangle_area",
    "C17_rectangle_area_narrow",
    "C17_rectangle_area_refuted",
    "C17_rectangle_center_defined",
    "C17_rectangle_center",
    "C17_rectangle_half"
   ],
   "note": "P_Ivl.v, P_Rect.v. For each function exactly when it is defined, and its value then. The unrestricted claim is false of the code: center, distance_squared, manhattan_distance and area overflow (refuted)."
  },
  {
   "property": "C18",
   "status": "partial",
   "theorems": [
    "C18_interval_distance",
    "C18_interval_distance_value",
    "C18_invalid_interval_refuted",
    "C18_rectangle_manhattan",
    "C18_rectangle_point_manhattan",
    "C18_rectangle_square_distance",
    "C18_rectangle_point_square_distance",
    "C18_rectangle_square_distance_defined",
    "C18_rectangle_square_distance_refuted",
    "C18_rectangle_distance_small",
    "C18_rectangle_distance_refuted",
    "C18_rectangle_distance_negative_refuted"
   ],
   "note": "P_Ivl.v, P_Rect.v. Least distances proved for intervals and rectangles; square_euclidean_distance overflows for far rectangles and euclidean_distance of rectangles casts the square to int (both refuted)."
  },
  {
   "property": "C19",
   "status": "partial",
   "theorems": [
    "C19_contains",
    "C19_contains_point",
    "C19_intersects_touch",
    "C19_intersects_open",
    "C19_boundaries_touch",
    "C19_boundaries_open",
    "C19_abuts",
    "C19_abuts_direction",
    "C19_abuts_orientation",
    "C19_intersect_touch",
    "C19_intersect_open_meeting",
    "C19_intersect_open_disjoint",
    "C19_intersect_open_refuted",
    "C19_encompass",
    "C19_encompass_point",
    "C19_join_with",
    "C19_join_with_when",
    "C19_set_points",
    "C19_less_irreflexive",
    "C19_less_transitive",
    "C19_less_total"
   ],
   "note": "P_Rect.v. All predicates in both modes; intersect without touch is wrong for rectangles that only touch (refuted)."
  },
  {
   "property": "C20",
   "status": "partial",
   "theorems": [
    "C20_convolve_point",
    "C20_deconvolve_point",
    "C20_convolve_point_inverse",
    "C20_convolve",
    "C20_deconvolve",
    "C20_convolve_inverse",
    "C20_reflected_convolve",
    "C20_reflected_inverse",
    "C20_move",
    "C20_move_defined",
    "C20_bloat",
    "C20_shrink",
    "C20_bloat_shrink_inverse",
    "C20_bloat_direction",
    "C20_shrink_direction",
    "C20_scale_up",
    "C20_scale_inverse",
    "C20_transform",
    "C20_transformation_object",
    "C20_scale_refuted"
   ],
   "note": "P_Rect.v. All but scale(), which uses one corner twice (refuted)."
  },
  {
   "property": "C21",
   "status": "proved",
   "theorems": [
    "C21_direction_2d",
    "C21_orientation_direction",
    "C21_direction_1d",
    "C21_perpendicular",
    "C21_direction_3d"
   ],
   "note": "P_Iso.v"
  },
  {
   "property": "C22",
   "status": "proved",
   "theorems": [
    "C22_transform_maps_axes",
    "C22_get_directions",
    "C22_set_get_directions",
    "C22_get_set_directions",
    "C22_inverse_undoes",
    "C22_plus_defined",
    "C22_plus_composes",
    "C22_equal_codes_iff_equal_maps",
    "C22_axis_array_roundtrip",
    "C22_combine_axis_arrays_refuted",
    "C22_scale_factor_transform",
    "C22_anisotropic_scale_refuted"
   ],
   "note": "P_Iso.v. Unbounded coordinates. combine_axis_arrays and anisotropic scale() are wrong in the code (refuted)."
  },
  {
   "property": "C23",
   "status": "partial",
   "theorems": [
    "C23_inverse_undoes",
    "C23_plus_undefined_refuted",
    "C23_plus_composes_refuted",
    "C23_plus_ignores_second_translation"
   ],
   "note": "P_Iso.v. invert() is proved; operator+= is false of the code (reads uninitialised variables), refuted."
  },
  {
   "property": "C24",
   "status": "proved",
   "theorems": [
    "C24_orientation",
    "C24_orientation_point",
    "C24_orientation_antisymmetric"
   ],
   "note": "No signed overflow either (outcome Ok)."
  },
  {
   "property": "C25",
   "status": "proved",
   "theorems": [
    "C25_contains_point",
    "C25_contains_segment",
    "C25_contains_segment_open",
    "C25_intersects",
    "C25_intersects_open",
    "C25_intersects_symmetric",
    "C25_abuts",
    "C25_abuts_direction",
    "C25_abuts_shared_end_refuted"
   ],
   "note": "Also records that sharing two low ends is not abutment."
  },
  {
   "property": "C26",
   "status": "partial",
   "theorems": [
    "C26_distance_point",
    "C26_distance_point_zero",
    "C26_distance_point_defined",
    "C26_distance_segment",
    "C26_distance_segment_defined",
    "C26_degenerate_refuted",
    "C26_degenerate",
    "C26_degenerate_segment_refuted",
    "C26_overflow_refuted"
   ],
   "note": "Proved for non-degenerate segments, floating-point operations in exact arithmetic; the degenerate case is refuted, and end-point distances can overflow (both recorded as theorems)."
  },
  {
   "property": "C27",
   "status": "proved",
   "theorems": [
    "C27_equivalence",
    "C27_less_lexicographic",
    "C27_less_irreflexive",
    "C27_less_transitive",
    "C27_less_total",
    "C27_convolve",
    "C27_deconvolve",
    "C27_convolve_inverse",
    "C27_deconvolve_inverse",
    "C27_convolve_commutes",
    "C27_move",
    "C27_move_inverse",
    "C27_scale_up",
    "C27_scale_down",
    "C27_scale_inverse",
    "C27_manhattan_l1",
    "C27_manhattan_metric",
    "C27_manhattan_symmetric"
   ],
   "note": "P_Rect.v"
  },
  {
   "property": "C28",
   "status": "proved",
   "theorems": [
    "C28_area",
    "C28_area_holes",
    "C28_area_defined",
    "C28_area_90",
    "C28_area_invariant",
    "C28_winding",
    "C28_winding_rev",
    "C28_winding_start"
   ],
   "note": "P_Poly.v. long double area exact up to the stated bound; polygon_90 in long long."
  },
  {
   "property": "C29",
   "status": "partial",
   "theorems": [
    "C29_round_trip",
    "C29_round_trip_nz",
    "C29_rectilinear",
    "C29_points_h",
    "C29_points_v",
    "C29_round_trip_refuted"
   ],
   "note": "P_Poly.v. Proved unless the last x equals the first; refuted there (a coordinate is dropped)."
  },
  {
   "property": "C30",
   "status": "partial",
   "theorems": [
    "C30_contains_90_partial",
    "C30_independent",
    "C30_agrees",
    "C30_contains_90_refuted",
    "C30_holes"
   ],
   "note": "P_Poly.v. Proved without edges of length zero; refuted with a vertex on a straight vertical edge."
  },
  {
   "property": "C31",
   "status": "proved",
   "theorems": [
    "C31_contains",
    "C31_contains_degenerate",
    "C31_below",
    "C31_independent",
    "C31_up_down",
    "C31_connected",
    "C31_bounded",
    "C31_holes"
   ],
   "note": "P_Poly.v. A polygon with one vertex position contains nothing, not even that position."
  },
  {
   "property": "C32",
   "status": "partial",
   "theorems": [
    "C32_is_45_partial",
    "C32_is_45_defined",
    "C32_is_45_holes_actual",
    "C32_is_45_holes_refuted"
   ],
   "note": "P_Poly.v. Proved without holes; refuted with holes: the holes are never looked at."
  },
  {
   "property": "C33",
   "status": "partial",
   "theorems": [
    "C33_equal_slope",
    "C33_less_slope",
    "C33_on_above_or_below",
    "C33_scan_on_above_or_below",
    "C33_scan_intersects_sound",
    "C33_scan_intersects_complete",
    "C33_scan_intersects_touch_refuted",
    "C33_scan_grid",
    "C33_scan_grid_at_limit_refuted",
    "C33_scan_compute_intersection",
    "C33_scan_round_down_refuted",
    "C33_scan_compute_intersection_long_refuted"
   ],
   "note": "P_Poly.v, P_ScanBase.v. The floating point operations of compute_intersection are taken as exact. Edges that only touch may be missed by intersects, and an intersection on a vertical edge is rounded towards zero (refuted); int overflow near INT_MAX and for long edges (refuted)."
  },
  {
   "property": "C34",
   "status": "partial",
   "theorems": [
    "C34_from_int32",
    "C34_from_int64",
    "C34_from_int_min_refuted",
    "C34_from_vector",
    "C34_negation",
    "C34_addition_partial",
    "C34_subtraction_partial",
    "C34_multiplication",
    "C34_expression_partial",
    "C34_arithmetic_refuted"
   ],
   "note": "P_XInt.v. Exact for canonical operands and for whole expressions in which no sum cancels more than 32 leading bits; in general refuted (2^64-(2^64-1)-5, INT_MIN)."
  },
  {
   "property": "C35",
   "status": "partial",
   "theorems": [
    "C35_order_partial",
    "C35_equality_partial",
    "C35_sign_partial",
    "C35_expression_partial",
    "C35_comparison_refuted",
    "C35_sign_refuted"
   ],
   "note": "P_XInt.v. Exact for canonical values; refuted for reachable non-canonical ones."
  },
  {
   "property": "C36",
   "status": "proved",
   "theorems": [
    "C36_antisymmetric",
    "C36_less",
    "C36_equal",
    "C36_exact"
   ],
   "note": "P_Vor.v. On the bit patterns of all finite doubles."
  },
  {
   "property": "C37",
   "status": "partial",
   "theorems": [
    "C37_orientation",
    "C37_cross_product_partial",
    "C37_four_differences_partial",
    "C37_four_differences_small",
    "C37_four_differences_refuted"
   ],
   "note": "P_Vor.v. Three points: exact. Four differences: exact below 2^64, refuted beyond."
  },
  {
   "property": "C38",
   "status": "proved",
   "theorems": [
    "C38_defined",
    "C38_irreflexive",
    "C38_asymmetric",
    "C38_transitive",
    "C38_incomparability_transitive",
    "C38_order_x",
    "C38_order_point_first",
    "C38_order_points",
    "C38_order_clockwise"
   ],
   "note": "P_Vor.v."
  },
  {
   "property": "C39",
   "status": "proved",
   "theorems": [
    "C39_eval1",
    "C39_eval2",
    "C39_eval3",
    "C39_eval4",
    "C39_eval4_exact",
    "C39_robust_dif",
    "C39_robust_fpt",
    "C39_robust_fpt_cancel",
    "C39_robust_fpt_sign",
    "C39_robust_fpt_linear_refuted",
    "C39_robust_fpt_cancel_refuted"
   ],
   "note": "P_Robust.v. Also the error bounds 4, 7, 16, 25 eps for every rounding, and the error tracking of robust_fpt; its strict readings are refuted."
  },
  {
   "property": "C40",
   "status": "proved",
   "theorems": [
    "C40_history",
    "C40_event_stable",
    "C40_new_edge",
    "C40_construct",
    "C40_same_vertex",
    "C40_diagram",
    "C40_vertical"
   ],
   "note": "P_VD.v. For every outcome of the floating point decisions. The finished diagram: consistent if it has vertices, or for sites on a vertical line; merging of vertices under clustered and forest."
  },
  {
   "property": "C41",
   "status": "proved",
   "theorems": [
    "C41_read_back",
    "C41_read_back_fits",
    "C41_flags_kept",
    "C41_category_kept",
    "C41_new_colour",
    "C41_long_colour_refuted"
   ],
   "note": "P_VD.v. Colours above 59 bits lose their high bits (refuted)."
  },
  {
   "property": "C42",
   "status": "proved",
   "theorems": [
    "C42_queries_are_pure",
    "C42_with_holes_refuted"
   ],
   "note": "P_Set90.v. Histories without holes; with holes refuted."
  },
  {
   "property": "C43",
   "status": "proved",
   "theorems": [
    "C43_convolve",
    "C43_deconvolve",
    "C43_move",
    "C43_scale_up",
    "C43_transform",
    "C43_ends",
    "C43_convolve_inverse",
    "C43_deconvolve_inverse",
    "C43_move_inverse",
    "C43_scale_inverse",
    "C43_center_defined",
    "C43_center",
    "C43_center_overflow_refuted",
    "C43_equality",
    "C43_less_irreflexive",
    "C43_less_transitive",
    "C43_less_total",
    "C43_envelope",
    "C43_envelope_return"
   ],
   "note": "center can overflow; the exact condition is a theorem."
  },
  {
   "property": "C44",
   "status": "proved",
   "theorems": [
    "C44_inserted_sites",
    "C44_queue",
    "C44_overlap_refuted"
   ],
   "note": "P_Vor.v. For every sorted permutation; with overlapping segments refuted."
  },
  {
   "property": "C45",
   "status": "proved",
   "theorems": [
    "C45_perimeter",
    "C45_perimeter_defined"
   ],
   "note": "P_Poly.v."
  },
  {
   "property": "C46",
   "status": "proved",
   "theorems": [
    "C46_rectangle_90",
    "C46_rectangle",
    "C46_rectangle_measures"
   ],
   "note": "P_Poly.v."
  },
  {
   "property": "C47",
   "status": "proved",
   "theorems": [
    "C47_convolve",
    "C47_convolve_90",
    "C47_move",
    "C47_transform",
    "C47_transform_90",
    "C47_transform_defined",
    "C47_scale_up",
    "C47_scale_up_90",
    "C47_scale_down_90",
    "C47_scale_down_up",
    "C47_holes"
   ],
   "note": "P_Poly.v. polygon_90 without edges of length zero."
  },
  {
   "property": "C48",
   "status": "partial",
   "theorems": [
    "C48_snap_partial",
    "C48_snap_refuted",
    "C48_snap_keeps_45",
    "C48_snap_prepare",
    "C48_scale_down_45_partial",
    "C48_snap_rings"
   ],
   "note": "P_Poly.v. Every edge but the first; all edges if the first is horizontal or vertical; refuted in general."
  },
  {
   "property": "C49",
   "status": "proved",
   "theorems": [
    "C49_progress",
    "C49_terminates",
    "C49_size",
    "C49_no_pending"
   ],
   "note": "P_VD.v. The geometry is a parameter. std::map hints are taken to be right."
  },
  {
   "property": "C50",
   "status": "proved",
   "theorems": [
    "C50_cells_and_flags",
    "C50_contains",
    "C50_degenerate_refuted"
   ],
   "note": "P_VD.v. A degenerate segment may make a point cell claim a segment (refuted)."
  },
  {
   "property": "C51",
   "status": "partial",
   "theorems": [
    "C51_interact_partial",
    "C51_selection_partial",
    "C51_unsorted_refuted",
    "C51_result_comparison_refuted"
   ],
   "note": "P_Touch.v. The polygons are those of get (C52). An argument that is clean but unsorted is not handled by the code, and the result is marked clean without being merged, so that a comparison with an equal set fails (both refuted)."
  },
  {
   "property": "C52",
   "status": "proved",
   "theorems": [
    "C52_get_polygons",
    "C52_scan",
    "C52_disjoint",
    "C52_polygons_roundtrip",
    "C52_bounds",
    "C52_fracture_same_region"
   ],
   "note": "P_PolyForm.v. Reachable sets, both orientations, with and without holes; no vertex threshold. Re-insertion may overflow in the area of a huge polygon (bound stated)."
  },
  {
   "property": "C53",
   "status": "proved",
   "theorems": [
    "C53_area",
    "C53_cell_count_unique",
    "C53_area_of_equal_sets",
    "C53_area_no_overflow",
    "C53_area_refuted"
   ],
   "note": "P_Free90.v. That the area always fits is refuted for sets wider than 2^31."
  },
  {
   "property": "C54",
   "status": "proved",
   "theorems": [
    "C54_grow_and",
    "C54_within_bloat",
    "C54_no_bloat"
   ],
   "note": "P_Free90.v. The polygons are those of get into polygons without holes (C52). Overflow only if a polygon or its bloat leaves the range."
  },
  {
   "property": "C55",
   "status": "partial",
   "theorems": [
    "C55_keep",
    "C55_keep_subset",
    "C55_keep_inclusive_refuted"
   ],
   "note": "P_Free90.v. Exact characterisation; the lower limits of width and height are exclusive in the code, so the inclusive statement is refuted."
  },
  {
   "property": "C56",
   "status": "proved",
   "theorems": [
    "C56_defined",
    "C56_noded",
    "C56_at_limit_refuted",
    "C56_long_refuted",
    "C56_distinct_refuted"
   ],
   "note": "P_Snap.v. The floating point operations of compute_intersection are taken as exact. Overflow outside of the stated limits is refuted as a separate finding; pieces of overlapping segments are repeated."
  },
  {
   "property": "C57",
   "status": "proved",
   "theorems": [
    "C57_path",
    "C57_point"
   ],
   "note": "P_Snap.v"
  },
  {
   "property": "C58",
   "status": "proved",
   "theorems": [
    "C58_near",
    "C58_cover",
    "C58_axis_parallel"
   ],
   "note": "P_Snap.v"
  },
  {
   "property": "C59",
   "status": "proved",
   "theorems": [
    "C59_vertices",
    "C59_origin"
   ],
   "note": "P_Snap.v"
  },
  {
   "property": "C60",
   "status": "proved",
   "theorems": [
    "C60_sides",
    "C60_operation"
   ],
   "note": "P_Arb.v"
  },
  {
   "property": "C61",
   "status": "proved",
   "theorems": [
    "C61_result",
    "C61_near"
   ],
   "note": "P_Arb.v"
  },
  {
   "property": "C62",
   "status": "proved",
   "theorems": [
    "C62_covers",
    "C62_axis_parallel"
   ],
   "note": "P_Arb.v"
  },
  {
   "property": "C63",
   "status": "proved",
   "theorems": [
    "C63_insert",
    "C63_defined",
    "C63_operation"
   ],
   "note": "P_Arb.v"
  },
  {
   "property": "C64",
   "status": "partial",
   "theorems": [
    "C64_clean",
    "C64_keeps_simple_polygons_refuted",
    "C64_idempotent_refuted"
   ],
   "note": "P_Arb.v. Coverage and form of the result are proved; that a second clean changes nothing and that simple polygons are kept is refuted."
  },
  {
   "property": "C65",
   "status": "partial",
   "theorems": [
    "C65_reflexive",
    "C65_defined",
    "C65_sound",
    "C65_axis_parallel",
    "C65_equal_to_cleaned_refuted"
   ],
   "note": "P_Arb.v. Proved except that a set equals its cleaned form, which is refuted."
  },
  {
   "property": "C66",
   "status": "partial",
   "theorems": [
    "C66_range",
    "C66_least_coordinate_refuted",
    "C66_long_edge_refuted"
   ],
   "note": "P_Arb.v. Proved for coordinates below 2^30; false for the least int as x coordinate and for edges of 2^31 and longer."
  },
  {
   "property": "C67",
   "status": "proved",
   "theorems": [
    "C67_defined",
    "C67_results",
    "C67_near",
    "C67_disjoint",
    "C67_covers",
    "C67_axis_parallel"
   ],
   "note": "P_ArbMerge.v"
  },
  {
   "property": "C68",
   "status": "partial",
   "theorems": [
    "C68_defined",
    "C68_graph",
    "C68_axis_parallel",
    "C68_overlap",
    "C68_close",
    "C68_empty_refuted"
   ],
   "note": "P_ArbConn.v; exact for horizontal and vertical edges, up to two units for other edges; refuted: extraction without any edge is undefined (C68_empty_refuted)"
  },
  {
   "property": "C69",
   "status": "proved",
   "theorems": [
    "C69_form",
    "C69_get",
    "C69_vertices"
   ],
   "note": "P_ArbForm.v. The vertices are not required to be distinct: a ring may touch itself. Which polygon a hole is given to is not part of the claim."
  },
  {
   "property": "C70",
   "status": "proved",
   "theorems": [
    "C70_covers",
    "C70_axis_parallel",
    "C70_near"
   ],
   "note": "P_ArbForm.v. The rings are counted together, each in the direction in which it is returned."
  },
  {
   "property": "C71",
   "status": "proved",
   "theorems": [
    "C71_three_points",
    "C71_two_points",
    "C71_one_point",
    "C71_three_segments"
   ],
   "note": "exact arithmetic in place of robust_fpt, extended exponents and the recomputation of inaccurate values; the error bounds of the evaluators are C39"
  },
  {
   "property": "C72",
   "status": "proved",
   "theorems": [
    "C72_found",
    "C72_points",
    "C72_own_reverse"
   ],
   "note": "the converse (no circle that does not exist) is proved for three points only; the code does not test it for segments"
  },
  {
   "property": "C73",
   "status": "proved",
   "theorems": [
    "C73_side",
    "C73_same_segment",
    "C73_arcs",
    "C73_false_at_crossing_refuted"
   ],
   "note": "the documented answer 'false' at the height of the crossing is refuted for a segment below a point"
  },
  {
   "property": "C74",
   "status": "proved",
   "theorems": [
    "C74_found",
    "C74_insert",
    "C74_new_bisectors",
    "C74_own_point"
   ],
   "note": ""
  },
  {
   "property": "C75",
   "status": "partial",
   "theorems": [
    "C75_result_partial",
    "C75_remaining_partial",
    "C75_test",
    "C75_empty_undefined",
    "C75_on_segment_kept_refuted",
    "C75_spike_removed_refuted",
    "C75_corner_removed_refuted"
   ],
   "note": "the documented rule is refuted in both directions; proved is what holds: the count, the order, the closing vertex, distance to the line for removed vertices, distance to one neighbour for remaining ones, and the documented rule for neighbours at the same height or on a line of slope one"
  },
  {
   "property": "C76",
   "status": "proved",
   "theorems": [
    "C76_sum",
    "C76_defined",
    "C76_edges",
    "C76_sets",
    "C76_sets_defined"
   ],
   "note": "the polygons of the operands are assumed simple (each ring goes around each place off its edges once or not at all, and so does the polygon with its holes); that get returns such polygons is not proved here"
  },
  {
   "property": "C77",
   "status": "proved",
   "theorems": [
    "C77_polygon",
    "C77_defined",
    "C77_rectangle",
    "C77_set",
    "C77_rectilinear_set",
    "C77_rectilinear_reading",
    "C77_rectilinear_set_as_hole_refuted",
    "C77_vertex_as_hole_refuted"
   ],
   "note": "the documented meaning of is_hole fails for polygon_90_set_data and single vertices: two refutations. Counts are unbounded integers"
  },
  {
   "property": "C78",
   "status": "proved",
   "theorems": [
    "C78_boolean",
    "C78_self",
    "C78_inserted"
   ],
   "note": "The exception for crossings beside the grid is an outcome of the model; the code that catches it (retry at doubled coordinates) and the branch for two rectilinear sets are not modelled. The two vectors are any sorted permutations of the operands. Counts and coordinates are unbounded. C78_boolean, C78_self: every result; C78_inserted: operands built by insertion are legal."
  },
  {
   "property": "C79",
   "status": "proved",
   "theorems": [
    "C79_boolean",
    "C79_self",
    "C79_scale_up",
    "C79_retry",
    "C79_retry_self",
    "C79_snap",
    "C79_snap_refuted",
    "C79_snap_order_refuted"
   ],
   "note": "C79_boolean, C79_self: no exception on suitable coordinates; C79_retry, C79_retry_self: the repetition at doubled coordinates succeeds and is exact; C79_scale_up; C79_snap with the condition it needs; C79_snap_refuted and C79_snap_order_refuted show the two defects of snap that the statement names. What the code does with the doubled result afterwards (error rectangles, scaling down) is not modelled."
  },
  {
   "property": "C80",
   "status": "proved",
   "theorems": [
    "C80_boolean",
    "C80_self",
    "C80_equal_sound",
    "C80_equal_rectilinear",
    "C80_equal_refuted",
    "C80_self_xor_refuted",
    "C80_empty_refuted"
   ],
   "note": "C80_boolean, C80_self: both ways of computing; C80_equal_sound, C80_equal_rectilinear; C80_self_xor_refuted, C80_equal_refuted and C80_empty_refuted show the three defects that the statement names. The flags unsorted_ and dirty_ are not modelled, the sets are as after an insertion."
  },
  {
   "property": "C81",
   "status": "partial",
   "theorems": [
    "C81_extents_enclose",
    "C81_extents_smallest_partial",
    "C81_equal_partial",
    "C81_determined"
   ],
   "note": "C81_extents_enclose: complete; C81_determined: the vertices are determined by the coverage up to vertices whose counts all cancel. C81_extents_smallest_partial and C81_equal_partial suppose, for sets that are not marked as rectilinear, that the sweep left no such vertex. Missing: that such vertices are left only where boundaries cross, which does not depend on how the set was built."
  },
  {
   "property": "C82",
   "status": "proved",
   "theorems": [
    "C82_squares",
    "C82_retry",
    "C82_retry_self",
    "C82_boolean",
    "C82_self",
    "C82_error_data_refuted"
   ],
   "note": "C82_squares, C82_retry, C82_retry_self, C82_boolean, C82_self; C82_error_data_refuted is the last sentence. That the operation ends well holds for any rings; the rest supposes that the rings formed from the doubled result have corners at its odd vertices and turn the same way where they meet there (rings_fit), because the formation of polygons is an argument of the model. The order is that of the vertices whose counts do not all cancel."
  },
  {
   "property": "C83",
   "status": "proved",
   "theorems": [
    "C83_clean",
    "C83_self",
    "C83_boolean",
    "C83_history",
    "C83_get_error_data_refuted",
    "C83_set_refuted",
    "C83_scale_up_errors_refuted",
    "C83_assign_refuted"
   ],
   "note": "C83_clean, C83_self, C83_boolean, C83_history; C83_get_error_data_refuted, C83_set_refuted, C83_scale_up_errors_refuted and C83_assign_refuted are the four defects that the statement names. Histories go on as long as the sweep does not throw; what comes after that is C82."
  },
  {
   "property": "C84",
   "status": "proved",
   "theorems": [
    "C84_make",
    "C84_opp",
    "C84_sign",
    "C84_plus",
    "C84_minus",
    "C84_mult",
    "C84_div",
    "C84_sqrt",
    "C84_d",
    "C84_special",
    "C84_zero_above",
    "C84_plus_zero_refuted",
    "C84_cancel_refuted",
    "C84_roots_refuted",
    "C84_exponent_refuted"
   ],
   "note": "C84_make, C84_opp, C84_sign, C84_plus, C84_minus, C84_mult, C84_div, C84_sqrt, C84_d, C84_special; C84_zero_above says what happens outside the condition of + and -, and C84_plus_zero_refuted, C84_cancel_refuted, C84_roots_refuted and C84_exponent_refuted are the defects that the statement names."
  },
  {
   "property": "C85",
   "status": "proved",
   "theorems": [
    "C85_pair",
    "C85_efpt",
    "C85_double",
    "C85_double_refuted",
    "C85_cancel_refuted"
   ],
   "note": "C85_pair, C85_efpt, C85_double; C85_double_refuted and C85_cancel_refuted are the defects that the statement names."
  },
  {
   "property": "C86",
   "status": "proved",
   "theorems": [
    "C86_eval1",
    "C86_eval2",
    "C86_zero_term_refuted",
    "C86_cancel_refuted"
   ],
   "note": "C86_eval1, C86_eval2; C86_zero_term_refuted and C86_cancel_refuted show that the conditions are needed."
  }
 ]
}