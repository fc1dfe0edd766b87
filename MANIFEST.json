{
 "claims": [
  {
   "property": "C01",
   "status": "proved",
   "theorems": [
    "C01_direct_policy_coherent",
    "C01_absolute_policy_coherent",
    "C01_relative_policy_coherent",
    "C01_fraction_policy_coherent",
    "C01_absolute_policy_meaning",
    "C01_relative_policy_meaning",
    "C01_fraction_policy_meaning",
    "C01_negative_tolerance_refuted"
   ],
   "note": "All four policies over exact rationals."
  },
  {
   "property": "C02",
   "status": "proved",
   "theorems": [
    "C02_tolerant_less_is_strict_partial_order",
    "C02_tolerant_equality_transitive_iff_zero"
   ],
   "note": "Absolute tolerance policy."
  },
  {
   "property": "C03",
   "status": "proved",
   "theorems": [
    "C03_lexicographical_is_dictionary_order",
    "C03_lexicographical_trichotomy",
    "C03_lexicographical_transitive",
    "C03_point_equality",
    "C03_reverse_lexicographical_2d",
    "C03_reverse_lexicographical_3d",
    "C03_variadic_compare"
   ],
   "note": "Any dimension; also reverse lexicographic order in 2 and 3 dimensions, variadic scalar comparison and point equality."
  },
  {
   "property": "C04",
   "status": "proved",
   "theorems": [
    "C04_tolerant_point_order_cycles",
    "C04_tolerant_point_order_not_weak"
   ],
   "note": "For every positive tolerance there is a 3-cycle and a failure of transitivity of incomparability."
  },
  {
   "property": "C05",
   "status": "proved",
   "theorems": [
    "C05_expand_gives_hull",
    "C05_expand_order_irrelevant",
    "C05_expand_least",
    "C05_expand_with_policy_refuted",
    "C05_expand_with_policy_nonempty"
   ],
   "note": "expand without policy is the least interval; the overload taking a comparison policy never widens an empty interval (refuted)."
  },
  {
   "property": "C06",
   "status": "proved",
   "theorems": [
    "C06_point_in_box",
    "C06_boxes_intersect_iff_common_point",
    "C06_contains_iff_subset",
    "C06_expand_is_least_upper_bound",
    "C06_corners"
   ],
   "note": "Any dimension."
  },
  {
   "property": "C07",
   "status": "proved",
   "theorems": [
    "C07_bounds_tight",
    "C07_tolerant_bounds_miss_at_most_tolerance",
    "C07_tolerant_bounds_refuted",
    "C07_bounds_of_range",
    "C07_segment_box"
   ],
   "note": "Tight with exact comparison in every dimension; with a tolerance the box may miss points by up to the tolerance (refuted as stated for tolerant policies)."
  },
  {
   "property": "C08",
   "status": "proved",
   "theorems": [
    "C08_point_box_distance",
    "C08_point_box_distance_3d",
    "C08_point_box_distance_zero_iff_inside"
   ],
   "note": "2d and 3d."
  },
  {
   "property": "C09",
   "status": "proved",
   "theorems": [
    "C09_box_box_distance",
    "C09_box_box_distance_symmetric_zero",
    "C09_box_box_distance_3d_refuted",
    "C09_box_box_distance_3d"
   ],
   "note": "2d overload proved; the 3d overload is wrong (C09_box_box_distance_3d_refuted)."
  },
  {
   "property": "C10",
   "status": "proved",
   "theorems": [
    "C10_point_segment_distance_is_minimum",
    "C10_point_segment_distance_is_minimum_n"
   ],
   "note": "Plane and every dimension."
  },
  {
   "property": "C11",
   "status": "proved",
   "theorems": [
    "C11_closest_point_of_segment",
    "C11_closest_point_of_segment_n",
    "C11_two_point_overload_closest",
    "C11_parameter_of_projection",
    "C11_two_point_overload_undefined_iff_degenerate"
   ],
   "note": "Plane and every dimension; the two-point overload is undefined exactly for coinciding end points."
  },
  {
   "property": "C12",
   "status": "proved",
   "theorems": [
    "C12_closest_points_of_two_segments",
    "C12_segment_segment_distance_is_minimum",
    "C12_tolerant_closest_points_on_segments",
    "C12_tolerant_minimality_refuted"
   ],
   "note": "Minimality proved for the direct policy; with an absolute tolerance the points stay on the segments but need not be closest (C12_tolerant_minimality_refuted)."
  },
  {
   "property": "C13",
   "status": "proved",
   "theorems": [
    "C13_polyline_distance_exact",
    "C13_same_as_brute_force",
    "C13_no_edge_is_infinitely_far"
   ],
   "note": "Direct policy; every priority queue meeting the heap contract; explicit iteration bound 2nm."
  },
  {
   "property": "C14",
   "status": "proved",
   "theorems": [
    "C14_small_polygons_exact",
    "C14_large_polygons_ignore_closing_edges",
    "C14_large_polygons_upper_bound",
    "C14_polygon_distance_refuted"
   ],
   "note": "Exact below six points; for larger polygons proved to be the distance of the open chains, and refuted as polygon distance for every tie-breaking order."
  },
  {
   "property": "C15",
   "status": "proved",
   "theorems": [
    "C15_orientation_names_the_side",
    "C15_orientation_symmetry",
    "C15_orientation_interiority",
    "C15_orientation_transitivity"
   ],
   "note": "Exact arithmetic, direct policy."
  },
  {
   "property": "C16",
   "status": "proved",
   "theorems": [
    "C16_is_between_closed",
    "C16_is_between_open",
    "C16_degenerate_segment_refuted"
   ],
   "note": "Distinct end points; the degenerate case is characterised exactly (C16_degenerate_segment_refuted)."
  },
  {
   "property": "C17",
   "status": "proved",
   "theorems": [
    "C17_vector_between",
    "C17_vector_between_angles"
   ],
   "note": "Stated with a direction order over Q and again with real polar angles."
  },
  {
   "property": "C18",
   "status": "proved",
   "theorems": [
    "C18_segment_intersection_exact",
    "C18_non_crossing_iff_disjoint",
    "C18_crossing_iff_interior_point",
    "C18_collinear_touch_reported_endpoint_refuted",
    "C18_degenerate_segment_refuted",
    "C18_never_invalid"
   ],
   "note": "Both segments non-degenerate, direct policy. A degenerate first segment is refuted; collinear end-point contact is reported as overlapping (refuted as endpoint)."
  },
  {
   "property": "C19",
   "status": "proved",
   "theorems": [
    "C19_line_line_with_parameters",
    "C19_line_line",
    "C19_line_segment",
    "C19_invalid_type_refuted"
   ],
   "note": "Both overloads of line_line_intersect and line_segment_intersect, direct policy."
  },
  {
   "property": "C20",
   "status": "proved",
   "theorems": [
    "C20_ray_segment",
    "C20_non_crossing_iff_disjoint",
    "C20_ray_segment_type_agrees",
    "C20_ray_segment_type_refuted"
   ],
   "note": "Unit direction. The overload without outputs is refuted for parallel, non-collinear segments and proved to agree otherwise."
  },
  {
   "property": "C21",
   "status": "proved",
   "theorems": [
    "C21_ray_box_entrance_exit",
    "C21_ray_box_single_point",
    "C21_ray_box_iff_meets",
    "C21_tolerant_ray_box_refuted"
   ],
   "note": "Direct policy, boxes with ordered bounds, non-zero direction; with an absolute tolerance a hit can be missed (refuted)."
  },
  {
   "property": "C22",
   "status": "proved",
   "theorems": [
    "C22_segment_box_exact",
    "C22_segment_box_exact_space",
    "C22_segment_box_epsilon_complete",
    "C22_segment_box_epsilon_refuted",
    "C22_polyline_box_exact"
   ],
   "note": "Exact for epsilon 0 in the plane and in space; with epsilon > 0 complete but not exact (refuted). Includes polyline_aabb_intersection."
  },
  {
   "property": "C23",
   "status": "proved",
   "theorems": [
    "C23_circle_circle"
   ],
   "note": "Direct policy, real radii; exact square root."
  },
  {
   "property": "C24",
   "status": "proved",
   "theorems": [
    "C24_ray_sphere",
    "C24_ray_sphere_tolerance_refuted"
   ],
   "note": "Direct policy over the reals, any dimension; tolerant policies proved to produce the root of a negative number."
  },
  {
   "property": "C25",
   "status": "proved",
   "theorems": [
    "C25_area_is_sum_of_fan_triangles",
    "C25_defined_iff_nonempty",
    "C25_rotation",
    "C25_reversal",
    "C25_cut",
    "C25_affine",
    "C25_area_is_absolute"
   ],
   "note": "Exact scalars."
  },
  {
   "property": "C26",
   "status": "proved",
   "theorems": [
    "C26_parity_of_ray_crossings",
    "C26_constant_off_the_boundary",
    "C26_crossing_parity",
    "C26_outside_bounding_box",
    "C26_unbounded_component",
    "C26_rotation",
    "C26_reversal",
    "C26_convex",
    "C26_fewer_than_three_points"
   ],
   "note": "Exact scalars; the code itself uses no comparison policy here."
  },
  {
   "property": "C27",
   "status": "proved",
   "theorems": [
    "C27_counter_clockwise",
    "C27_clockwise_rejects_everything",
    "C27_clockwise_refuted",
    "C27_degenerate_accepts_the_line",
    "C27_tolerant_keeps_the_triangle",
    "C27_in_space",
    "C27_in_space_refuted"
   ],
   "note": "Direct policy; a tolerance never rejects a point of the triangle."
  },
  {
   "property": "C28",
   "status": "proved",
   "theorems": [
    "C28_lookup",
    "C28_cells_disjoint",
    "C28_cells_cover",
    "C28_cell_geometry",
    "C28_wrap_refuted"
   ],
   "note": ""
  },
  {
   "property": "C29",
   "status": "proved",
   "theorems": [
    "C29_history",
    "C29_references_stay_valid",
    "C29_access_by_point"
   ],
   "note": ""
  },
  {
   "property": "C30",
   "status": "proved",
   "theorems": [
    "C30_digital_line",
    "C30_segment",
    "C30_overflow_refuted"
   ],
   "note": ""
  },
  {
   "property": "C31",
   "status": "proved",
   "theorems": [
    "C31_visits_component",
    "C31_life"
   ],
   "note": ""
  },
  {
   "property": "C32",
   "status": "proved",
   "theorems": [
    "C32_clip_exact",
    "C32_accepts_iff_meets",
    "C32_ends_inside",
    "C32_inside_unchanged",
    "C32_tolerance_refuted"
   ],
   "note": ""
  },
  {
   "property": "C33",
   "status": "proved",
   "theorems": [
    "C33_range_search_complete",
    "C33_visits_cells",
    "C33_order",
    "C33_policies",
    "C33_empty_refuted",
    "C33_only_range_refuted"
   ],
   "note": ""
  },
  {
   "property": "C34",
   "status": "proved",
   "theorems": [
    "C34_terminates",
    "C34_stored",
    "C34_locate",
    "C34_locate_generic",
    "C34_convex_region",
    "C34_convex",
    "C34_border_refuted",
    "C34_extension_refuted"
   ],
   "note": ""
  },
  {
   "property": "C35",
   "status": "proved",
   "theorems": [
    "C35_terminates",
    "C35_rules",
    "C35_score",
    "C35_split"
   ],
   "note": ""
  },
  {
   "property": "C36",
   "status": "proved",
   "theorems": [
    "C36_split",
    "C36_lengths",
    "C36_position",
    "C36_before",
    "C36_beyond_refuted"
   ],
   "note": "Over the reals, exact comparisons."
  },
  {
   "property": "C37",
   "status": "proved",
   "theorems": [
    "C37_split_segment",
    "C37_pieces_small",
    "C37_zero_size_refuted"
   ],
   "note": "Over the reals."
  },
  {
   "property": "C38",
   "status": "proved",
   "theorems": [
    "C38_polyline",
    "C38_polyline_vertices",
    "C38_fold_refuted"
   ],
   "note": ""
  },
  {
   "property": "C39",
   "status": "proved",
   "theorems": [
    "C39_triangles",
    "C39_constructible",
    "C39_random_position",
    "C39_every_position",
    "C39_double_refuted"
   ],
   "note": "Exact arithmetic. C39_double_refuted: with the double precision sums of the code the last cumulated weight can be below 1, and rT = 1 selects a triangle out of range."
  },
  {
   "property": "C40",
   "status": "proved",
   "theorems": [
    "C40_adjacency",
    "C40_manifold",
    "C40_nonmanifold_refuted",
    "C40_adjacent_side"
   ],
   "note": "C40_nonmanifold_refuted: with an edge shared by three triangles the matrix is not symmetric."
  },
  {
   "property": "C41",
   "status": "proved",
   "theorems": [
    "C41_decomposition",
    "C41_solve",
    "C41_throws_iff_singular",
    "C41_run_time",
    "C41_run_time_refuted"
   ],
   "note": "Exact rational arithmetic; the unrolled sizes 2 to 6 follow the generic loop, which is what is modelled, for every size."
  },
  {
   "property": "C42",
   "status": "proved",
   "theorems": [
    "C42_add",
    "C42_sub",
    "C42_neg_abs",
    "C42_increment",
    "C42_mul",
    "C42_div",
    "C42_div_zero",
    "C42_fmod",
    "C42_compare"
   ],
   "note": "Overflow of the storage type or of the wide type is a separate outcome; results hold when it does not occur."
  },
  {
   "property": "C43",
   "status": "proved",
   "theorems": [
    "C43_range_0_2pi",
    "C43_range_minus_pi_to_pi",
    "C43_heading"
   ],
   "note": "Over the reals."
  },
  {
   "property": "C44",
   "status": "proved",
   "theorems": [
    "C44_memoize"
   ],
   "note": ""
  },
  {
   "property": "C45",
   "status": "proved",
   "theorems": [
    "C45_true_means_overlap",
    "C45_extreme_index_of_triangle",
    "C45_triangles",
    "C45_counterclockwise_refuted",
    "C45_quadrilaterals_refuted",
    "C45_endless_refuted"
   ],
   "note": ""
  },
  {
   "property": "C46",
   "status": "proved",
   "theorems": [
    "C46_hull",
    "C46_returns",
    "C46_lowest_refuted",
    "C46_first_ray_refuted"
   ],
   "note": ""
  },
  {
   "property": "C47",
   "status": "proved",
   "theorems": [
    "C47_point_distance_dims_1_to_4",
    "C47_point_distance_high_dim_ignores_last",
    "C47_point_distance_refuted"
   ],
   "note": "Exact for dimensions 1-4; for dimension >= 5 the code is proved wrong (C47_point_distance_refuted)."
  },
  {
   "property": "C48",
   "status": "proved",
   "theorems": [
    "C48_segment_interval_compare_strict_order",
    "C48_segment_interval_compare_meaning",
    "C48_segment_compare_uses_first_point_only",
    "C48_segment_compare_refuted"
   ],
   "note": "The exact characterisation of lexicographical_segment_compare shows the defect (line 484 reads end1 from s2)."
  },
  {
   "property": "C49",
   "status": "proved",
   "theorems": [
    "C49_intersects_right_open",
    "C49_intersects_closed_sound",
    "C49_intersects_closed_misses_only_touching",
    "C49_intersects_closed_refuted",
    "C49_intersects_direct",
    "C49_intersects_tolerance",
    "C49_add_scalar_image",
    "C49_sub_scalar_image",
    "C49_mul_positive_scalar_image",
    "C49_add_interval_image",
    "C49_mul_negative_scalar_refuted",
    "C49_sub_interval_refuted",
    "C49_clamp_nearest",
    "C49_div_positive_scalar_image",
    "C49_div_scalar_undefined",
    "C49_div_negative_scalar_refuted",
    "C49_sub_single_value",
    "C49_scalar_minus_interval_refuted",
    "C49_min_max",
    "C49_sign"
   ],
   "note": "Defects are the _refuted theorems: closed touching intervals, negative scale, interval subtraction."
  },
  {
   "property": "C50",
   "status": "proved",
   "theorems": [
    "C50_angle_compare_is_polar_order",
    "C50_every_vector_has_a_polar_angle",
    "C50_angle_compare_strict_weak_order",
    "C50_point_angle_compare",
    "C50_pseudo_angle"
   ],
   "note": "Real polar angles; exact comparison."
  },
  {
   "property": "C51",
   "status": "proved",
   "theorems": [
    "C51_oriented_crossing",
    "C51_t_junction_refuted"
   ],
   "note": "Both crossing outcomes characterised; contact at an end point is refuted."
  },
  {
   "property": "C52",
   "status": "proved",
   "theorems": [
    "C52_vertical_horizontal",
    "C52_y_of_x",
    "C52_x_of_y",
    "C52_x_of_y_vertical_refuted"
   ],
   "note": "x_of_y divides by zero on vertical lines, where the answer exists (refuted)."
  },
  {
   "property": "C53",
   "status": "proved",
   "theorems": [
    "C53_point_polyline_distance",
    "C53_point_polygon_distance",
    "C53_point_polyline_closest_point",
    "C53_point_polygon_closest_point",
    "C53_point_polygon_collection_closest_point",
    "C53_repeated_vertex_closest_point_refuted"
   ],
   "note": "Repeated vertices are refuted for the closest point."
  },
  {
   "property": "C54",
   "status": "proved",
   "theorems": [
    "C54_segment_polyline_distance",
    "C54_segment_polygon_distance",
    "C54_segment_polyline_closest_point",
    "C54_segment_polygon_closest_point"
   ],
   "note": "Direct policy."
  },
  {
   "property": "C55",
   "status": "proved",
   "theorems": [
    "C55_point_line_distance",
    "C55_point_obb_distance",
    "C55_point_obb_closest_point",
    "C55_segment_obb_distance_measured",
    "C55_segment_obb_distance_refuted"
   ],
   "note": "segment_obb_distance_sqrd uses the diagonal from corner 3 to corner 1 instead of the side from 3 to 0: refuted, and characterised as it is (C55_segment_obb_distance_measured)."
  },
  {
   "property": "C56",
   "status": "proved",
   "theorems": [
    "C56_ray_line_nonparallel",
    "C56_ray_line_exact",
    "C56_ray_line_behind_reference_refuted",
    "C56_parallel_line_refuted"
   ],
   "note": "Total characterisation C56_ray_line_exact; the two differences from the textbook meaning are the _refuted theorems."
  },
  {
   "property": "C57",
   "status": "proved",
   "theorems": [
    "C57_segment_intersection_in_space",
    "C57_non_crossing_iff_disjoint",
    "C57_crossing_is_interior_refuted",
    "C57_degenerate_segment_undefined"
   ],
   "note": "Set of common points exact; the distinction crossing/endpoint only looks at the second segment (refuted); degenerate first segments divide by zero (proved)."
  },
  {
   "property": "C58",
   "status": "proved",
   "theorems": [
    "C58_disc_box",
    "C58_disc_box_point",
    "C58_ball_box",
    "C58_disc_obb"
   ],
   "note": "Plane and space for axis-aligned boxes."
  },
  {
   "property": "C59",
   "status": "proved",
   "theorems": [
    "C59_oriented_boxes_exact"
   ],
   "note": "Direct policy; proved through a zonotope lemma."
  },
  {
   "property": "C60",
   "status": "proved",
   "theorems": [
    "C60_segment_plane",
    "C60_parallel_undefined"
   ],
   "note": "Segments not parallel to the plane; the parallel case is proved to divide by zero."
  },
  {
   "property": "C61",
   "status": "proved",
   "theorems": [
    "C61_polyline_closest_points",
    "C61_small_polylines_always_assign",
    "C61_small_polygons",
    "C61_large_polygons_ignore_closing_edges",
    "C61_common_start_leaves_outputs_unset"
   ],
   "note": "Direct policy."
  },
  {
   "property": "C62",
   "status": "proved",
   "theorems": [
    "C62_moving_spheres",
    "C62_touching_refuted"
   ],
   "note": "Direct policy over the reals."
  },
  {
   "property": "C63",
   "status": "proved",
   "theorems": [
    "C63_segment_sphere",
    "C63_segment_sphere_two",
    "C63_point_segment_refuted"
   ],
   "note": "Direct policy over the reals."
  },
  {
   "property": "C64",
   "status": "proved",
   "theorems": [
    "C64_moving_sphere_plane"
   ],
   "note": "Direct policy over the reals."
  },
  {
   "property": "C65",
   "status": "proved",
   "theorems": [
    "C65_moving_sphere_segment",
    "C65_at_rest_refuted"
   ],
   "note": "Direct policy over the reals."
  },
  {
   "property": "C66",
   "status": "proved",
   "theorems": [
    "C66_segment_capsule",
    "C66_inside_refuted",
    "C66_parallel_refuted"
   ],
   "note": "Direct policy over the reals; the excluded cases are proved wrong by example."
  },
  {
   "property": "C67",
   "status": "proved",
   "theorems": [
    "C67_centroid_is_weighted_mean",
    "C67_undefined_iff_zero_area",
    "C67_triangle"
   ],
   "note": "Exact scalars."
  },
  {
   "property": "C68",
   "status": "proved",
   "theorems": [
    "C68_vertex",
    "C68_border_parity",
    "C68_border_of_simple_polygons",
    "C68_doubled_edge_refuted"
   ],
   "note": "Direct policy."
  },
  {
   "property": "C69",
   "status": "proved",
   "theorems": [
    "C69_point_in_convex_polygon",
    "C69_hull_is_half_plane_intersection",
    "C69_point_in_convex_quadrilateral"
   ],
   "note": "Direct policy; the bound proved on the recursion depth is the number of vertices."
  },
  {
   "property": "C70",
   "status": "proved",
   "theorems": [
    "C70_next_prev_inverse",
    "C70_polygon_segments",
    "C70_polyline_segments",
    "C70_point_sequences_equal",
    "C70_polygons_equal",
    "C70_polygon_offset",
    "C70_polygon_offset_refuted",
    "C70_concave"
   ],
   "note": "Direct policy."
  },
  {
   "property": "C71",
   "status": "proved",
   "theorems": [
    "C71_history"
   ],
   "note": ""
  },
  {
   "property": "C72",
   "status": "proved",
   "theorems": [
    "C72_walk",
    "C72_end_cell_refuted"
   ],
   "note": ""
  },
  {
   "property": "C73",
   "status": "proved",
   "theorems": [
    "C73_stoppable"
   ],
   "note": ""
  },
  {
   "property": "C74",
   "status": "proved",
   "theorems": [
    "C74_filled_polygon",
    "C74_boundary_outside",
    "C74_larger_polygon_refuted"
   ],
   "note": "Exact arithmetic, direct comparison. Polygons that leave the region are not covered by the claim: C74_boundary_outside shows that nothing is visited when the boundary misses the region, so a polygon covering the whole grid is not filled (C74_larger_polygon_refuted)."
  },
  {
   "property": "C75",
   "status": "proved",
   "theorems": [
    "C75_vector_angle",
    "C75_angle_between_points"
   ],
   "note": "Over the reals, without signed zeros."
  },
  {
   "property": "C76",
   "status": "proved",
   "theorems": [
    "C76_rotation_turns",
    "C76_rotation_maps",
    "C76_rotation_rigid",
    "C76_rotation_lists",
    "C76_rotation_lengths_refuted"
   ],
   "note": "Over the reals."
  },
  {
   "property": "C77",
   "status": "proved",
   "theorems": [
    "C77_bisect",
    "C77_bisect_not_antiparallel",
    "C77_lengths_refuted"
   ],
   "note": "Over the reals."
  },
  {
   "property": "C78",
   "status": "proved",
   "theorems": [
    "C78_slerp",
    "C78_slerp_ends",
    "C78_slerp_same",
    "C78_slerp_opposite_refuted",
    "C78_lerp",
    "C78_is_antiparallel"
   ],
   "note": "Over the reals."
  },
  {
   "property": "C79",
   "status": "proved",
   "theorems": [
    "C79_polygon",
    "C79_polygon_vertices",
    "C79_polygon_area",
    "C79_first_vertex_refuted",
    "C79_last_vertex_refuted",
    "C79_identified_count",
    "C79_identified_refuted"
   ],
   "note": ""
  },
  {
   "property": "C80",
   "status": "proved",
   "theorems": [
    "C80_polyline",
    "C80_vertices",
    "C80_polygon",
    "C80_identified",
    "C80_clean_polyline",
    "C80_closing_refuted"
   ],
   "note": ""
  },
  {
   "property": "C81",
   "status": "proved",
   "theorems": [
    "C81_front",
    "C81_front_vertices",
    "C81_back",
    "C81_ends",
    "C81_nothing_left",
    "C81_negative_refuted"
   ],
   "note": "Over the reals, exact comparisons."
  },
  {
   "property": "C82",
   "status": "proved",
   "theorems": [
    "C82_length",
    "C82_perimeter",
    "C82_single_point_refuted",
    "C82_middle",
    "C82_middle_undefined_refuted"
   ],
   "note": "Over the reals."
  },
  {
   "property": "C83",
   "status": "proved",
   "theorems": [
    "C83_from_rational",
    "C83_integer_round_trip",
    "C83_to_float_refuted",
    "C83_to_float_truncates",
    "C83_binary_runtime_refuted",
    "C83_convert_traits_refuted",
    "C83_compare_rounded_refuted"
   ],
   "note": "Findings are stated as _refuted theorems."
  },
  {
   "property": "C84",
   "status": "proved",
   "theorems": [
    "C84_find_triangle",
    "C84_degenerate_refuted"
   ],
   "note": "Exact comparison. C84_degenerate_refuted: a stored triangle of three collinear points is returned for points outside of it."
  },
  {
   "property": "C85",
   "status": "proved",
   "theorems": [
    "C85_triangle_box",
    "C85_tolerance"
   ],
   "note": ""
  },
  {
   "property": "C86",
   "status": "proved",
   "theorems": [
    "C86_moving_boxes"
   ],
   "note": ""
  },
  {
   "property": "C87",
   "status": "proved",
   "theorems": [
    "C87_moving_triangles",
    "C87_quadrilaterals_refuted"
   ],
   "note": ""
  },
  {
   "property": "C88",
   "status": "proved",
   "theorems": [
    "C88_painters",
    "C88_painters_stored",
    "C88_on_line_refuted"
   ],
   "note": ""
  },
  {
   "property": "C89",
   "status": "proved",
   "theorems": [
    "C89_locate",
    "C89_exact",
    "C89_convex",
    "C89_convex_room",
    "C89_no_walls",
    "C89_between_refuted",
    "C89_no_boundary",
    "C89_no_boundary_refuted"
   ],
   "note": ""
  },
  {
   "property": "C90",
   "status": "proved",
   "theorems": [
    "C90_min_distance"
   ],
   "note": ""
  },
  {
   "property": "C91",
   "status": "proved",
   "theorems": [
    "C91_ray",
    "C91_on_line_refuted",
    "C91_border_refuted"
   ],
   "note": ""
  },
  {
   "property": "C92",
   "status": "proved",
   "theorems": [
    "C92_chains",
    "C92_histories",
    "C92_merge_refuted",
    "C92_endless_refuted",
    "C92_copy_refuted"
   ],
   "note": ""
  },
  {
   "property": "C93",
   "status": "proved",
   "theorems": [
    "C93_polyline",
    "C93_polygon_border",
    "C93_one_point_refuted"
   ],
   "note": "C93_one_point_refuted: a polygon of one point is read out of range. segment_polygon_intersect of the same header does not compile (a scoped enumeration used as a condition) and is not modelled."
  },
  {
   "property": "C94",
   "status": "proved",
   "theorems": [
    "C94_polylines",
    "C94_all_sides_refuted"
   ],
   "note": "C94_all_sides_refuted: intersections on later sides of the first polyline are never reported."
  },
  {
   "property": "C95",
   "status": "proved",
   "theorems": [
    "C95_self",
    "C95_straight_refuted",
    "C95_simple",
    "C95_triangle",
    "C95_flat_triangle_refuted",
    "C95_memoized"
   ],
   "note": "C95_straight_refuted: a straight polyline with an inner vertex is reported as intersecting itself. C95_flat_triangle_refuted: a triangle on one line is called simple."
  },
  {
   "property": "C96",
   "status": "proved",
   "theorems": [
    "C96_holes",
    "C96_outside_hole_refuted"
   ],
   "note": "C96_outside_hole_refuted: a hole outside the outer polygon is accepted."
  },
  {
   "property": "C97",
   "status": "proved",
   "theorems": [
    "C97_projects",
    "C97_polyline",
    "C97_polygon"
   ],
   "note": "Containment of a polygon is stated for its border: that the points inside are then contained too is the Jordan curve theorem, not proved here."
  },
  {
   "property": "C98",
   "status": "proved",
   "theorems": [
    "C98_determinant",
    "C98_product",
    "C98_inverse",
    "C98_singular",
    "C98_trace",
    "C98_identity"
   ],
   "note": "Stated over an arbitrary mathcomp fieldType; no axioms. Inverse for dimension 1 does not compile in the library (minor of dimension 0)."
  },
  {
   "property": "C99",
   "status": "proved",
   "theorems": [
    "C99_polylines",
    "C99_polygons",
    "C99_moved",
    "C99_repeated_refuted",
    "C99_one_point_refuted"
   ],
   "note": "C99_repeated_refuted: a bend at a repeated point is not seen. C99_one_point_refuted."
  },
  {
   "property": "C100",
   "status": "proved",
   "theorems": [
    "C100_result",
    "C100_flat",
    "C100_farthest",
    "C100_tolerance_refuted",
    "C100_assertion_refuted",
    "C100_closed_refuted"
   ],
   "note": "C100_tolerance_refuted (a point left out may be far from the result), C100_assertion_refuted, C100_closed_refuted."
  },
  {
   "property": "C101",
   "status": "proved",
   "theorems": [
    "C101_containing",
    "C101_closest",
    "C101_combined",
    "C101_one_point_refuted"
   ],
   "note": "C101_one_point_refuted."
  },
  {
   "property": "C102",
   "status": "proved",
   "theorems": [
    "C102_half",
    "C102_subsequence",
    "C102_nothing",
    "C102_endless_refuted"
   ],
   "note": "The side index is an argument of the model (C101 proves the search). C102_endless_refuted: all vertices equal to the point."
  },
  {
   "property": "C103",
   "status": "proved",
   "theorems": [
    "C103_history",
    "C103_additions",
    "C103_zero_length_refuted"
   ],
   "note": "C103_zero_length_refuted: adding a point to a horizontal member replaces the member by the point."
  },
  {
   "property": "C104",
   "status": "proved",
   "theorems": [
    "C104_curvature_of_the_circle",
    "C104_every_circle",
    "C104_defined",
    "C104_totals",
    "C104_totals_undefined",
    "C104_backwards",
    "C104_motion",
    "C104_bound"
   ],
   "note": ""
  },
  {
   "property": "C105",
   "status": "proved",
   "theorems": [
    "C105_inflection_points",
    "C105_never_right",
    "C105_always_right_refuted",
    "C105_split_at_inflections",
    "C105_split_by_total"
   ],
   "note": "C105_always_right_refuted: the inflection points of a constantly right-turning polyline are its second and last point."
  },
  {
   "property": "C106",
   "status": "proved",
   "theorems": [
    "C106_offset",
    "C106_parallel",
    "C106_undefined",
    "C106_straight_refuted",
    "C106_untrimmed",
    "C106_turn_back_refuted"
   ],
   "note": "C106_straight_refuted: straight vertices give an uninitialised point. C106_turn_back_refuted: a turn straight back is given no point."
  },
  {
   "property": "C107",
   "status": "proved",
   "theorems": [
    "C107_sweep",
    "C107_every_pair",
    "C107_single_point_refuted"
   ],
   "note": "C107_single_point_refuted: with a single-point segment in the list a crossing of two other segments is missed. The number of events can exceed the reserved 3n, after which references into the event map are invalidated (not modelled, see DESIGN.md)."
  },
  {
   "property": "C108",
   "status": "proved",
   "theorems": [
    "C108_points",
    "C108_points_clockwise",
    "C108_test",
    "C108_clockwise_refuted",
    "C108_single_point_refuted",
    "C108_flat_triangle_refuted"
   ],
   "note": "C108_clockwise_refuted: with a clockwise triangle, ends inside the triangle are not seen. C108_single_point_refuted: a single point on the line of a side, outside, is given the whole side. C108_flat_triangle_refuted: a triangle without area accepts disjoint segments on its line."
  },
  {
   "property": "C109",
   "status": "partial",
   "theorems": [
    "C109_side_of_a_polyline_partial",
    "C109_nearest_corner_is_outer",
    "C109_given_side",
    "C109_too_short",
    "C109_before_start_refuted"
   ],
   "note": "Proved except for points before the start of the first of several sides, where the code is wrong: C109_before_start_refuted (the second corner is looked at although the first point is nearest)."
  },
  {
   "property": "C110",
   "status": "proved",
   "theorems": [
    "C110_polygon_box_exact",
    "C110_epsilon_complete",
    "C110_convex",
    "C110_single_point_undefined"
   ],
   "note": "A polygon of one vertex reads past its end (C110_single_point_undefined)."
  },
  {
   "property": "C111",
   "status": "partial",
   "theorems": [
    "C111_aligned_box_partial",
    "C111_oriented_box_partial",
    "C111_too_early_refuted",
    "C111_too_late_refuted"
   ],
   "note": "Proved when the centre starts beyond one of the sides by more than the radius. Otherwise the code is wrong: the ray test returns the exit of the enlarged box, and the time is too early (C111_too_early_refuted) or too late (C111_too_late_refuted)."
  },
  {
   "property": "C112",
   "status": "partial",
   "theorems": [
    "C112_segment_in_range_partial",
    "C112_behind_refuted",
    "C112_with_points_sound_partial",
    "C112_points_exact_partial",
    "C112_with_points_defined",
    "C112_with_points_overlooks_refuted",
    "C112_wrong_points_refuted"
   ],
   "note": "Without outputs: exact, except that a segment joining the two rays behind the origin is always reported (C112_behind_refuted). With outputs: sound with the same exception; it overlooks segments (C112_with_points_overlooks_refuted) and writes points outside the range (C112_wrong_points_refuted). The overload without outputs relies on the overload of ray_segment_intersection that is wrong for parallel segments (C20); those never reach it. The points written are proved to be the ends of exactly the part in the range (C112_points_exact_partial) unless one end is in the range and the other in the opposite one; the overload never reads a point that was not computed."
  },
  {
   "property": "C113",
   "status": "partial",
   "theorems": [
    "C113_visible_vertices_complete_partial",
    "C113_visible_vertices_exact_partial",
    "C113_sight_inside",
    "C113_no_cycle",
    "C113_hidden_refuted",
    "C113_endless_refuted"
   ],
   "note": "Proved: on a mesh without overlaps and cycles, seen from a point on no line through two vertices, the search ends and finds exactly the vertices to which a line of sight leads (C113_visible_vertices_exact_partial; a line of sight stays in the mesh, C113_sight_inside; a numbering criterion for no cycles, C113_no_cycle); on every mesh, when the search ends every such vertex is found. Refuted beyond that: the search does not end on three triangles around a common vertex (C113_endless_refuted); with the point on a line through two vertices a hidden vertex is reported (C113_hidden_refuted). Missing: which of the other meshes and points it still gets right."
  },
  {
   "property": "C114",
   "status": "proved",
   "theorems": [
    "C114_corner_walk",
    "C114_falling_in_column_refuted"
   ],
   "note": "C114_falling_in_column_refuted: every segment falling from left to right within one column makes about 2^32 calls, most of them for cells outside the grid."
  },
  {
   "property": "C115",
   "status": "proved",
   "theorems": [
    "C115_terminates",
    "C115_answer",
    "C115_contact",
    "C115_corners_visited",
    "C115_disjoint",
    "C115_none_iff_disjoint",
    "C115_overlap_exact",
    "C115_second_inside_first",
    "C115_first_inside_second_refuted",
    "C115_vertex_is_overlapping_refuted"
   ],
   "note": "C115_answer is the complete answer for convex polygons in every position: all visits are common points, none exactly for disjoint polygons, face with the two ends of the common segment, overlapping with a hull of visits that is the common part. C115_contact: polygons that only touch. C115_corners_visited: every corner of the common part is visited. The one exception in the statement is the case of C115_first_inside_second_refuted (first polygon strictly inside the second, different numbers of points: read out of range or visited incompletely). C115_vertex_is_overlapping_refuted: a contact in one vertex can be reported as face."
  },
  {
   "property": "C116",
   "status": "proved",
   "theorems": [
    "C116_sphere_polyline",
    "C116_inside_refuted"
   ],
   "note": "Real arithmetic. C116_inside_refuted: the surface is tested, so a polyline inside the ball is reported as not intersecting. An edge of length zero divides by zero (C63_point_segment_refuted). The header omits a typename that compilers before C++20 require."
  },
  {
   "property": "C117",
   "status": "proved",
   "theorems": [
    "C117_filled_with_holes",
    "C117_one_hole_left_out",
    "C117_two_holes_refuted"
   ],
   "note": "Exact arithmetic, direct comparison. With more than one hole cells inside a hole can be visited: the scan compares only with the first hole not yet skipped, and a hole that ends below the scanned rows is never dropped (C117_two_holes_refuted)."
  },
  {
   "property": "C118",
   "status": "proved",
   "theorems": [
    "C118_value",
    "C118_unique",
    "C118_no_more",
    "C118_singular",
    "C118_no_direction",
    "C118_refused",
    "C118_refused_function",
    "C118_matrix_times_number_refuted",
    "C118_matrix_times_vector_refuted",
    "C118_matrix_times_point_refuted",
    "C118_tensor_of_vectors_refuted",
    "C118_tensor_vector_matrix_refuted",
    "C118_dimension_one_refuted",
    "C118_dimensions_unchecked_refuted"
   ],
   "note": "Exact arithmetic. Outside the claim, and refuted: matrix times number, matrix (not square) times vector or point, vector & vector, vector & wide matrix, scalar products of dimension 1, the inverse of a 1 by 1 matrix; and sums of vectors of different dimensions are accepted (C118_..._refuted)."
  },
  {
   "property": "C119",
   "status": "proved",
   "theorems": [
    "C119_shift",
    "C119_assign",
    "C119_assign_point",
    "C119_compound",
    "C119_cross_refuted",
    "C119_norm_refuted"
   ],
   "note": "Exact arithmetic. Without the condition x = e is wrong: x = x ^ y and x = norm(x) use components already overwritten (C119_cross_refuted, C119_norm_refuted)."
  },
  {
   "property": "C120",
   "status": "proved",
   "theorems": [
    "C120_flat_declarations",
    "C120_nested_refuted"
   ],
   "note": "Objects and their lifetimes modelled as a list of nodes, destroyed at the end of the full expression; scopes of the named objects are not modelled (they live as long as the program)."
  },
  {
   "property": "C121",
   "status": "proved",
   "theorems": [
    "C121_to_cartesian",
    "C121_to_polar",
    "C121_round_trip",
    "C121_access",
    "C121_neutral_refuted",
    "C121_integer_refuted"
   ],
   "note": "Over the reals (atan2 without signed zeros). Outside the claim: going through the neutral frame loses the frame (C121_neutral_refuted); integer coordinates cut the angles to whole radians (C121_integer_refuted)."
  },
  {
   "property": "C122",
   "status": "partial",
   "theorems": [
    "C122_parallel_partial",
    "C122_never_less_partial",
    "C122_crossing_refuted",
    "C122_collinear_refuted",
    "C122_symmetry_refuted",
    "C122_point_refuted"
   ],
   "note": "Proved: exact for parallel segments in opposite directions or with the first starting not ahead of the second; never less than the least squared distance outside the remaining parallel cases. The full claim is false: C122_crossing_refuted (1 instead of 0), C122_collinear_refuted (1 instead of 81), C122_symmetry_refuted, C122_point_refuted."
  },
  {
   "property": "C123",
   "status": "proved",
   "theorems": [
    "C123_too_large",
    "C123_digits",
    "C123_defined",
    "C123_seven_refuted",
    "C123_overflow_refuted"
   ],
   "note": "A user expects P right digits for every P the static assertion admits (below 54900): false, C123_seven_refuted (3.141005) and C123_overflow_refuted (20000 digits). pi is the real number of the standard library, bounded with its Machin formula."
  },
  {
   "property": "C124",
   "status": "proved",
   "theorems": [
    "C124_cut_total",
    "C124_border_exact",
    "C124_winding",
    "C124_convex_exact",
    "C124_classify",
    "C124_repeated_vertex_refuted",
    "C124_single_vertex_refuted"
   ],
   "note": "Refuted beside it: where the polygon touches the plane from behind at a vertex the back part has that vertex twice (C124_repeated_vertex_refuted), and a polygon behind the plane with a vertex on it has a front part of a single vertex (C124_single_vertex_refuted)."
  },
  {
   "property": "C125",
   "status": "proved",
   "theorems": [
    "C125_random_element",
    "C125_limit_refuted",
    "C125_random_integer",
    "C125_even",
    "C125_zero_refuted",
    "C125_hsv",
    "C125_channel_unique",
    "C125_negative_hue_refuted"
   ],
   "note": "Refuted beside it: random_index_generator(n) is documented for [0,n) but returns n, so that random_element can return the end (C125_limit_refuted); random_integer(0) divides by zero (C125_zero_refuted); a slightly negative hue is black (C125_negative_hue_refuted)."
  },
  {
   "property": "C126",
   "status": "proved",
   "theorems": [
    "C126_trim",
    "C126_cover",
    "C126_apart",
    "C126_unchecked_refuted"
   ],
   "note": "Refuted beside it: a copy without self-intersections is not compared with the original and can run through it (C126_unchecked_refuted, with the untrimmed offset of C106)."
  },
  {
   "property": "C127",
   "status": "proved",
   "theorems": [
    "C127_on",
    "C127_off",
    "C127_zero_side_refuted"
   ],
   "note": "Refuted beside it: a side of length zero counts every point at its height as lying on it (C127_zero_side_refuted)."
  },
  {
   "property": "C128",
   "status": "proved",
   "theorems": [
    "C128_boxes",
    "C128_segments_pass",
    "C128_distance_order",
    "C128_distance_order_refuted",
    "C128_distance_tolerance_refuted",
    "C128_coordinate_order_refuted",
    "C128_pairs",
    "C128_segment_range",
    "C128_segment_range_refuted"
   ],
   "note": "Refuted beside it: distance_compare with five coordinates or with a tolerance, the direction of coordinate_less_compare, a ring of one point."
  },
  {
   "property": "C129",
   "status": "proved",
   "theorems": [
    "C129_projection",
    "C129_projection_zero",
    "C129_area_plane",
    "C129_cross",
    "C129_area_space",
    "C129_area_space_refuted",
    "C129_volume"
   ],
   "note": "Refuted beside it: in space exterior_product_area is the sum of the coordinates of the cross product, not its magnitude (C129_area_space, C129_area_space_refuted)."
  },
  {
   "property": "C130",
   "status": "proved",
   "theorems": [
    "C130_scored",
    "C130_selects",
    "C130_cost_refuted"
   ],
   "note": "Refuted beside it: the arguments of classify are swapped, so the cost is not that of splitting by the chosen line; it can choose a line that cuts everything when another cuts nothing (C130_cost_refuted)."
  },
  {
   "property": "C131",
   "status": "proved",
   "theorems": [
    "C131_point",
    "C131_vector",
    "C131_difference",
    "C131_compose",
    "C131_compose_refuted",
    "C131_identity",
    "C131_rigid"
   ],
   "note": "Refuted beside it: with a perspective last row the product is not the composition, as nothing divides by the extra coordinate (C131_compose_refuted)."
  },
  {
   "property": "C132",
   "status": "proved",
   "theorems": [
    "C132_same_scale",
    "C132_same_scale_order",
    "C132_mixed_scale_refuted",
    "C132_integer",
    "C132_integer_fails",
    "C132_integer_type_refuted",
    "C132_integer_order",
    "C132_integer_left",
    "C132_integer_left_refuted",
    "C132_function_whole",
    "C132_function_fraction_refuted",
    "C132_function_whole_part",
    "C132_function_scale_refuted",
    "C132_stream",
    "C132_limits",
    "C132_construct"
   ],
   "note": "Refuted beside it: numbers of two run-time scales are combined by mantissa (C132_mixed_scale_refuted); an integer of a small type overflows in its own type (C132_integer_type_refuted); an integer on the left takes the default run-time scale (C132_integer_left_refuted); functions see the whole part only, so ceil(1.50) is 1.00 (C132_function_fraction_refuted), and return the default scale (C132_function_scale_refuted)."
  },
  {
   "property": "C133",
   "status": "proved",
   "theorems": [
    "C133_direct",
    "C133_fits",
    "C133_mirrored",
    "C133_zero_tolerance",
    "C133_tolerance",
    "C133_between",
    "C133_infinite",
    "C133_equal_infinities_refuted",
    "C133_nan"
   ],
   "note": "Relative policy: when the scaled tolerance does not overflow. Refuted beside it: two equal infinities are neither equal nor ordered (C133_equal_infinities_refuted)."
  },
  {
   "property": "C134",
   "status": "proved",
   "theorems": [
    "C134_vector_side",
    "C134_point_side",
    "C134_near_points",
    "C134_integer_side",
    "C134_integer_exact",
    "C134_exchange",
    "C134_coinciding",
    "C134_wrong_side_refuted"
   ],
   "note": "Refuted beside it: for other points the side can be wrong and depend on the point taken first (C134_wrong_side_refuted)."
  },
  {
   "property": "C135",
   "status": "proved",
   "theorems": [
    "C135_distance",
    "C135_error",
    "C135_distance_error",
    "C135_underflow_refuted",
    "C135_overflow_refuted"
   ],
   "note": "Refuted beside it: the distance of different points can be zero (C135_underflow_refuted) and that of finite points infinite (C135_overflow_refuted)."
  },
  {
   "property": "C136",
   "status": "proved",
   "theorems": [
    "C136_comparable",
    "C136_chosen",
    "C136_registrations",
    "C136_coherent",
    "C136_one_tolerance",
    "C136_tolerance_reaches_all",
    "C136_mixed_types_refuted"
   ],
   "note": "Refuted beside it: for two types of one unit with different policies the answer depends on the operand written first (C136_mixed_types_refuted)."
  },
  {
   "property": "C137",
   "status": "proved",
   "theorems": [
    "C137_bounds",
    "C137_direct",
    "C137_tolerance",
    "C137_order_refuted",
    "C137_none"
   ],
   "note": "Refuted beside it: with a tolerance the bounds can exclude a point and depend on the order of the points (C137_order_refuted). No points: inverted infinities (C137_none)."
  },
  {
   "property": "C138",
   "status": "proved",
   "theorems": [
    "C138_outside",
    "C138_integer_exact",
    "C138_rotation",
    "C138_left_refuted"
   ],
   "note": "Refuted beside it: a point left of all vertices can be reported inside, and the answer depends on the direction of the vertices (C138_left_refuted)."
  },
  {
   "property": "C139",
   "status": "proved",
   "theorems": [
    "C139_index_in_range",
    "C139_cell_exists",
    "C139_monotone",
    "C139_index_close",
    "C139_centroid",
    "C139_in_cell_refuted",
    "C139_columns_wrap_refuted",
    "C139_rows_wrap_refuted",
    "C139_cells_tile",
    "C139_corner_close"
   ],
   "note": "Refuted beside it: a contained point can lie outside the box reported for its cell (C139_in_cell_refuted); with 2^32 columns the count wraps to zero and no point has a cell (C139_columns_wrap_refuted)."
  },
  {
   "property": "C140",
   "status": "proved",
   "theorems": [
    "C140_length",
    "C140_at_most_one",
    "C140_unit",
    "C140_direction",
    "C140_opposite",
    "C140_axis_refuted",
    "C140_range_refuted"
   ],
   "note": "Refuted beside it: (49,0) is not normalised to (1,0) (C140_axis_refuted); vectors of size 2^-600 fail the assertion, those of size 2^600 become zero (C140_range_refuted)."
  },
  {
   "property": "C141",
   "status": "proved",
   "theorems": [
    "C141_expand",
    "C141_expand_order",
    "C141_expand_policy",
    "C141_expand_policy_refuted",
    "C141_intersects",
    "C141_intersects_symmetric",
    "C141_intersects_policy",
    "C141_intersects_tolerance",
    "C141_sum",
    "C141_scalar",
    "C141_exact_sum_refuted",
    "C141_difference_refuted",
    "C141_difference"
   ],
   "note": "Refuted beside it: expand with a policy loses values on a default interval (C141_expand_policy_refuted); the exact sum can lie outside (C141_exact_sum_refuted); the difference of intervals can be empty (C141_difference_refuted)."
  },
  {
   "property": "C142",
   "status": "proved",
   "theorems": [
    "C142_meaning",
    "C142_strict_weak_order",
    "C142_equivalent",
    "C142_sequence_equals",
    "C142_tolerance",
    "C142_tolerance_refuted",
    "C142_nan_refuted"
   ],
   "note": "Refuted beside it: with a tolerance, or with NaNs, equivalence is not transitive (C142_tolerance_refuted, C142_nan_refuted)."
  },
  {
   "property": "C143",
   "status": "proved",
   "theorems": [
    "C143_point",
    "C143_boxes",
    "C143_symmetric",
    "C143_contains",
    "C143_expand",
    "C143_tolerance",
    "C143_nan_refuted"
   ],
   "note": "Refuted beside it: a point of NaNs is reported in every box (C143_nan_refuted)."
  },
  {
   "property": "C144",
   "status": "proved",
   "theorems": [
    "C144_segments_not_missed",
    "C144_segments_meaning",
    "C144_overlap_far_refuted",
    "C144_line_segment_not_missed",
    "C144_line_segment_point",
    "C144_ray_segment_meaning",
    "C144_ray_missed_refuted"
   ],
   "note": "Refuted beside it: nearly parallel segments arbitrarily far apart can be reported as overlapping (C144_overlap_far_refuted), and a ray can miss a segment that it crosses in its middle (C144_ray_missed_refuted). Arithmetic is exact here; C18 to C20 are the case of tolerance zero."
  },
  {
   "property": "C145",
   "status": "proved",
   "theorems": [
    "C145_segment_polyline",
    "C145_segment_border",
    "C145_polylines",
    "C145_self",
    "C145_simple",
    "C145_simple_holes",
    "C145_rectangle_refuted"
   ],
   "note": "The converse is refuted: a rectangle of any width whose area is the tolerance is answered not to be simple (C145_rectangle_refuted). C93 to C95 are the exact statements at tolerance zero."
  },
  {
   "property": "C146",
   "status": "proved",
   "theorems": [
    "C146_as_exact",
    "C146_common_points",
    "C146_missed_refuted",
    "C146_between",
    "C146_simple",
    "C146_segment_polyline"
   ],
   "note": "Refuted beside it: with integers below 2^29 a segment that starts at the midpoint of the other is answered not to meet it (C146_missed_refuted). Taken as given: binary64 arithmetic rounded to nearest, no contraction to fused operations."
  }
 ]
}