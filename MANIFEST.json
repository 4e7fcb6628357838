{
 "claims": [
  {
   "property": "C01",
   "status": "proved",
   "theorems": [
    "C01_face_output_is_required",
    "C01_strict_faces",
    "C01_one_copy",
    "C01_aliases"
   ],
   "note": ""
  },
  {
   "property": "C02",
   "status": "proved",
   "theorems": [
    "C02_extract_faithful"
   ],
   "note": ""
  },
  {
   "property": "C03",
   "status": "proved",
   "theorems": [
    "C03_result_is_the_set"
   ],
   "note": ""
  },
  {
   "property": "C04",
   "status": "proved",
   "theorems": [
    "C04_both_special",
    "C04_first_special",
    "C04_second_special"
   ],
   "note": ""
  },
  {
   "property": "C05",
   "status": "proved",
   "theorems": [
    "C05_complement",
    "C05_swap",
    "C05_preference"
   ],
   "note": ""
  },
  {
   "property": "C06",
   "status": "proved",
   "theorems": [
    "C06_mixed_mesh_exists",
    "C06_pieces_of_the_faces",
    "C06_serial_mix",
    "C06_result_selects_pieces",
    "C06_face_data"
   ],
   "note": ""
  },
  {
   "property": "C07",
   "status": "proved",
   "theorems": [
    "C07_faces_around_edge_exact"
   ],
   "note": ""
  },
  {
   "property": "C08",
   "status": "partial",
   "theorems": [
    "C08_adjacency_total_refuted",
    "C08_adjacency_total_partial"
   ],
   "note": "False as stated: a vertex after the last one used by a face makes faces_around_edge throw std::out_of_range (refuted). Proved for all vertices up to the last used one."
  },
  {
   "property": "C09",
   "status": "proved",
   "theorems": [
    "C09_faces_around_face_exact"
   ],
   "note": ""
  },
  {
   "property": "C10",
   "status": "proved",
   "theorems": [
    "C10_propagation_floods_component"
   ],
   "note": ""
  },
  {
   "property": "C11",
   "status": "partial",
   "theorems": [
    "C11_no_face_unclassified_refuted",
    "C11_unclassified_face_is_dropped_refuted",
    "C11_no_face_unclassified_partial",
    "C11_only_sound_tags_partial",
    "C11_boundary_is_reported_partial"
   ],
   "note": "False as stated: if an UNKNOWN face touches a classified one across a non-border edge, part of a component may stay UNKNOWN (refuted), and such a face is output by no operator. Proved when UNKNOWN faces touch UNKNOWN faces only; C48-C50 show that this condition always holds for solids."
  },
  {
   "property": "C12",
   "status": "proved",
   "theorems": [
    "C12_strict_weak_order",
    "C12_ordered_by_angle",
    "C12_angle_exists",
    "C12_incomparable_same_direction",
    "C12_bin_total"
   ],
   "note": ""
  },
  {
   "property": "C13",
   "status": "proved",
   "theorems": [
    "C13_outside_is_after",
    "C13_tags_are_true",
    "C13_local_classification_sound"
   ],
   "note": ""
  },
  {
   "property": "C14",
   "status": "proved",
   "theorems": [
    "C14_no_guess_on_contradiction"
   ],
   "note": ""
  },
  {
   "property": "C15",
   "status": "proved",
   "theorems": [
    "C15_each_element_once",
    "C15_post_once_per_worker",
    "C15_posts_do_not_overlap",
    "C15_reduction",
    "C15_always_returns"
   ],
   "note": ""
  },
  {
   "property": "C16",
   "status": "proved",
   "theorems": [
    "C16_throws_iff_raised",
    "C16_first_recorded",
    "C16_after_all_workers",
    "C16_no_new_elements",
    "C16_at_most_once"
   ],
   "note": ""
  },
  {
   "property": "C17",
   "status": "proved",
   "theorems": [
    "C17_sorts",
    "C17_merge_precondition",
    "C17_no_shared_element",
    "C17_work_is_local",
    "C17_always_returns"
   ],
   "note": ""
  },
  {
   "property": "C18",
   "status": "partial",
   "theorems": [
    "C18_contexts_nest",
    "C18_any_interleaving",
    "C18_threads_are_isolated",
    "C18_num_threads_in_range",
    "C18_workers_bounded_partial",
    "C18_workers_bounded_refuted"
   ],
   "note": "The clause on the number of workers is false for parallel_do without a state (refuted); it is proved for parallel_do with a state and for parallel_sort. The other clauses are proved."
  },
  {
   "property": "C19",
   "status": "proved",
   "theorems": [
    "C19_ids_name_points",
    "C19_unchecked_ids_are_new"
   ],
   "note": ""
  },
  {
   "property": "C20",
   "status": "partial",
   "theorems": [
    "C20_one_id_per_feature_partial",
    "C20_id_is_the_construction",
    "C20_shared_end_refuted"
   ],
   "note": "False for two edges with a common end point, whose key depends on the order of the operands (refuted); proved for all other requests. C38 and C49 show that no such request arises in corefinement in a way that matters."
  },
  {
   "property": "C21",
   "status": "proved",
   "theorems": [
    "C21_tags_exact",
    "C21_schedule_irrelevant",
    "C21_no_exception",
    "C21_race_free",
    "C21_cleanness_needed"
   ],
   "note": "C21_cleanness_needed shows that the no-duplicates hypothesis cannot be dropped: with a face and its opposite in one mesh the result depends on the schedule."
  },
  {
   "property": "C22",
   "status": "proved",
   "theorems": [
    "C22_pairs_exact",
    "C22_no_intersection_missed"
   ],
   "note": ""
  },
  {
   "property": "C23",
   "status": "proved",
   "theorems": [
    "C23_query_exact",
    "C23_box_query",
    "C23_boxes_share_point",
    "C23_race_free",
    "C23_schedule_irrelevant",
    "C23_in_bounds",
    "C23_node_count",
    "C23_always_ends"
   ],
   "note": ""
  },
  {
   "property": "C24",
   "status": "proved",
   "theorems": [
    "C24_side_is_membership",
    "C24_gives_up_only_if_ambiguous",
    "C24_bounded_side",
    "C24_empty_full"
   ],
   "note": ""
  },
  {
   "property": "C25",
   "status": "proved",
   "theorems": [
    "C25_round_trip",
    "C25_writable",
    "C25_kinds"
   ],
   "note": ""
  },
  {
   "property": "C26",
   "status": "partial",
   "theorems": [
    "C26_prefix_not_accepted",
    "C26_doubles_return_false",
    "C26_returns_false_refuted"
   ],
   "note": "No proper prefix is accepted (proved). That failure is reported by returning false holds for doubles (proved) but not for exact numbers: a cut inside a rational divides by zero (refuted)."
  },
  {
   "property": "C27",
   "status": "partial",
   "theorems": [
    "C27_reading_appends",
    "C27_replaces_iff_blank",
    "C27_replaces_refuted",
    "C27_accepts_invalid_refuted"
   ],
   "note": "False as stated: reading appends to what the region object holds and checks neither kinds nor indices (refuted). Proved: what the reader does instead, and that it replaces exactly if the object is blank."
  },
  {
   "property": "C28",
   "status": "proved",
   "theorems": [
    "C28_round_trip"
   ],
   "note": ""
  },
  {
   "property": "C29",
   "status": "proved",
   "theorems": [
    "C29_round_trip",
    "C29_wrong_counts_fail"
   ],
   "note": ""
  },
  {
   "property": "C30",
   "status": "proved",
   "theorems": [
    "C30_round_trip",
    "C30_wrong_counts_fail"
   ],
   "note": ""
  },
  {
   "property": "C31",
   "status": "proved",
   "theorems": [
    "C31_fan",
    "C31_obj_polygons",
    "C31_off_polygons",
    "C31_ply_polygons",
    "C31_all_or_nothing"
   ],
   "note": ""
  },
  {
   "property": "C32",
   "status": "proved",
   "theorems": [
    "C32_edges",
    "C32_closed"
   ],
   "note": ""
  },
  {
   "property": "C33",
   "status": "proved",
   "theorems": [
    "C33_isolated",
    "C33_trivial",
    "C33_non_trivial",
    "C33_of_input"
   ],
   "note": ""
  },
  {
   "property": "C34",
   "status": "proved",
   "theorems": [
    "C34_vertices"
   ],
   "note": ""
  },
  {
   "property": "C35",
   "status": "proved",
   "theorems": [
    "C35_cells",
    "C35_counts",
    "C35_max_degree",
    "C35_simple",
    "C35_connected",
    "C35_out_of_range"
   ],
   "note": ""
  },
  {
   "property": "C36",
   "status": "proved",
   "theorems": [
    "C36_exact",
    "C36_hull",
    "C36_empty",
    "C36_order"
   ],
   "note": ""
  },
  {
   "property": "C37",
   "status": "proved",
   "theorems": [
    "C37_cached_orientation"
   ],
   "note": ""
  },
  {
   "property": "C38",
   "status": "proved",
   "theorems": [
    "C38_cut_along_the_intersection",
    "C38_border_is_the_constraints",
    "C38_only_rejected_constraints_fail",
    "C38_tags",
    "C38_ids_name_the_points",
    "C38_one_id_per_point",
    "C38_succeeds",
    "C38_constraints_are_compatible",
    "C38_never_fails",
    "C38_returns"
   ],
   "note": ""
  },
  {
   "property": "C39",
   "status": "partial",
   "theorems": [
    "C39_boolean_status",
    "C39_operand_names",
    "C39_boolean_files_partial",
    "C39_only_requested",
    "C39_no_command",
    "C39_convert_status",
    "C39_convert_back_partial",
    "C39_status_refuted",
    "C39_kind_lost_refuted",
    "C39_convert_read_back_partial",
    "C39_boolean_read_back_partial"
   ],
   "note": "Proved: the files written, the operand names, the exit status, and that what was written is read back (all of the region from .kigumi, the mesh with rounded coordinates from .obj, .off and .ply), provided that write failures are noticed before the file is closed. False: a failure when the destructor empties the buffer gives status 0; a mesh format loses the kind of an empty or full region (refuted)."
  },
  {
   "property": "C40",
   "status": "partial",
   "theorems": [
    "C40_first_faces",
    "C40_current_partial",
    "C40_refuted"
   ],
   "note": "False as stated: a tree cached by a query is not rebuilt after add_face (refuted). Proved for histories without additions between a query and the next assignment."
  },
  {
   "property": "C41",
   "status": "partial",
   "theorems": [
    "C41_own_points_partial",
    "C41_calling_thread",
    "C41_refuted",
    "C41_other_points_refuted"
   ],
   "note": "False as stated: thread_local functors keep a reference to the points of an earlier computation on the calling thread (refuted, twice). Proved for computations on threads of parallel_do's own."
  },
  {
   "property": "C42",
   "status": "proved",
   "theorems": [
    "C42_merge"
   ],
   "note": ""
  },
  {
   "property": "C43",
   "status": "proved",
   "theorems": [
    "C43_exact",
    "C43_flag"
   ],
   "note": ""
  },
  {
   "property": "C44",
   "status": "proved",
   "theorems": [
    "C44_append_only",
    "C44_vertex_index",
    "C44_face_index",
    "C44_data",
    "C44_copy",
    "C44_new_from",
    "C44_moved",
    "C44_region_needs_faces"
   ],
   "note": ""
  },
  {
   "property": "C45",
   "status": "partial",
   "theorems": [
    "C45_exception_ptr_race_refuted",
    "C45_race_free_without_exceptions_partial"
   ],
   "note": "False: exception_ptr is read without the mutex (refuted). Proved if nothing throws."
  },
  {
   "property": "C46",
   "status": "partial",
   "theorems": [
    "C46_obj_indices_exist_refuted",
    "C46_off_indices_exist_refuted",
    "C46_ply_indices_exist_refuted",
    "C46_indices_exist_partial"
   ],
   "note": "False: no reader checks the upper bound of an index (refuted). Proved for files whose polygons use declared vertices."
  },
  {
   "property": "C47",
   "status": "proved",
   "theorems": [
    "C47_result_is_the_set",
    "C47_boundary_determines_the_set"
   ],
   "note": ""
  },
  {
   "property": "C48",
   "status": "proved",
   "theorems": [
    "C48_classification_is_right",
    "C48_result_is_the_set"
   ],
   "note": ""
  },
  {
   "property": "C49",
   "status": "proved",
   "theorems": [
    "C49_mix_arranges",
    "C49_mix_ends",
    "C49_two_faces_are_fair",
    "C49_boolean_operation",
    "C49_boolean_operation_with_rays"
   ],
   "note": ""
  },
  {
   "property": "C50",
   "status": "proved",
   "theorems": [
    "C50_classification_is_right",
    "C50_schedule_does_not_matter",
    "C50_every_schedule_ends",
    "C50_mix_arranges",
    "C50_includes_one_after_another",
    "C50_boolean_operation",
    "C50_mix_ends"
   ],
   "note": "Every interleaving of single accesses to tags; memory is sequentially consistent."
  },
  {
   "property": "C51",
   "status": "partial",
   "theorems": [
    "C51_local_phase_race_free_refuted",
    "C51_local_phase_writes_agree",
    "C51_global_phase_race_free"
   ],
   "note": "False for local classification: two threads may assign the tag of one face at the same time (refuted), though always the same tag (proved). Proved for global classification on all meshes."
  },
  {
   "property": "C52",
   "status": "proved",
   "theorems": [
    "C52_result_meets_the_conditions",
    "C52_expressions",
    "C52_evaluation_ends",
    "C52_expressions_with_rays"
   ],
   "note": "The side conditions of C49 (fair edges, constrained triangulation, agreeing overlaps) are asked of every pair of regions that an evaluation combines, including intermediate results."
  },
  {
   "property": "C53",
   "status": "partial",
   "theorems": [
    "C53_conditions_of_readme_refuted"
   ],
   "note": "False (refuted): for two closed meshes that meet the conditions and touch along an edge with four faces the difference comes out empty, without a warning, although it contains a tetrahedron. True with the extra condition fair_edges, which holds if every edge has two faces: C49_boolean_operation and C49_two_faces_are_fair."
  },
  {
   "property": "C54",
   "status": "proved",
   "theorems": [
    "C54_mix_arranges",
    "C54_mix_ends",
    "C54_boolean_operation",
    "C54_boolean_operation_with_rays",
    "C54_mix_arranges_scheduled",
    "C54_boolean_operation_scheduled",
    "C54_side_is_membership",
    "C54_closed_meshes_inside"
   ],
   "note": "Under the extra condition meet_inside (faces have edges in common only inside the convex region), without which it is false: C55."
  },
  {
   "property": "C55",
   "status": "partial",
   "theorems": [
    "C55_common_convex_region_refuted"
   ],
   "note": "False (refuted): for two sheets that share an edge on the boundary of the convex region the union comes out as the smaller one of two nested sets, without a warning. True if faces have more than a point in common only inside the region: C54_boolean_operation."
  },
  {
   "property": "C56",
   "status": "partial",
   "theorems": [
    "C56_lowest_overlaps_agree",
    "C56_delaunay_overlaps_agree",
    "C56_boolean_operation",
    "C56_boolean_operation_lowest",
    "C56_ties_refuted"
   ],
   "note": "Proved for heights without ties, and for Delaunay triangulations when no four vertices of an overlap are on a circle; then C49's assumption about coplanar overlaps is not needed. False with ties (C56_ties_refuted): two tetrahedra on both sides of a plane whose faces in it overlap in a cyclic quadrilateral; if the two triangulations, both constrained Delaunay, take different diagonals, the intersection comes out as four flat faces instead of empty, without a warning."
  },
  {
   "property": "C57",
   "status": "proved",
   "theorems": [
    "C57_find_defects_decides",
    "C57_boolean_operation",
    "C57_nested_refuted"
   ],
   "note": "C57_nested_refuted is the last sentence of the statement: a mesh that passes the check and bounds no set."
  },
  {
   "property": "C58",
   "status": "proved",
   "theorems": [
    "C58_criterion",
    "C58_connected_by_turns",
    "C58_region_criterion",
    "C58_connected_mesh_bounds",
    "C58_one_set",
    "C58_passed_region",
    "C58_connected_operands",
    "C58_end_to_end"
   ],
   "note": ""
  },
  {
   "property": "C59",
   "status": "proved",
   "theorems": [
    "C59_seen_face_decides",
    "C59_convex_side",
    "C59_boolean_operation"
   ],
   "note": ""
  },
  {
   "property": "C60",
   "status": "partial",
   "theorems": [
    "C60_found_off_planes",
    "C60_gives_up_iff_ambiguous",
    "C60_boolean_operation",
    "C60_side_refuted",
    "C60_operation_refuted"
   ],
   "note": "Proved: the side is found off finitely many planes, a characterisation of the failures, and the end-to-end statement for Boolean operations that names the point to blame. Refuted: that the side of every point off a mesh without defects is found, and that Boolean operations on two such meshes never throw."
  },
  {
   "property": "C61",
   "status": "proved",
   "theorems": [
    "C61_result_is_convex",
    "C61_intersection_is_convex",
    "C61_operations",
    "C61_convex_expressions",
    "C61_intersections",
    "C61_convex_boundaries_are_closed",
    "C61_results_pass_the_check"
   ],
   "note": "C61_result_is_convex and C61_intersection_is_convex: what convex boundaries give is convex (geometry only, from what C52 says the result is). C61_operations: which operations amount to intersections. C61_convex_expressions and C61_intersections: expressions made of such operations, by induction, with C52 for one step and C59 for the side of a point. C61_example: the hypotheses hold for a chain of three regions whose second step cuts two overlapping tetrahedra, and an evaluation exists."
  },
  {
   "property": "C62",
   "status": "proved",
   "theorems": [
    "C62_same_sets",
    "C62_equal_expressions",
    "C62_laws",
    "C62_equal_expressions_with_rays"
   ],
   "note": "C62_same_sets: regions whose sets agree off finitely many triangles are the same (geometry). C62_equal_expressions and C62_equal_expressions_with_rays: for evaluations, from C52. C62_laws: the laws as pairs of expressions that denote the same set. C62_example: two expressions over tetrahedra that are both evaluated, with any numbers of threads."
  },
  {
   "property": "C63",
   "status": "proved",
   "theorems": [
    "C63_boundaries_are_watertight",
    "C63_regions",
    "C63_find_defects",
    "C63_expressions",
    "C63_expressions_with_rays",
    "C63_closed"
   ],
   "note": "For every region that represents a set and meets the conditions, hence for every result of an expression (C63_expressions, C63_expressions_with_rays). That the boundary is a closed mesh needs the hypothesis that parts of the body do not touch along an edge (C63_closed)."
  },
  {
   "property": "C64",
   "status": "proved",
   "theorems": [
    "C64_every_operation",
    "C64_volumes",
    "C64_complements",
    "C64_convex_sign",
    "C64_convex_positive",
    "C64_convex_union",
    "C64_convex_union_exact",
    "C64_volumes_of_expressions",
    "C64_volumes_of_expressions_with_rays",
    "C64_volumes_of_results",
    "C64_union_and_intersection",
    "C64_from_every_point",
    "C64_regions_from_every_point",
    "C64_positive",
    "C64_volumes_of_sets"
   ],
   "note": "C64_every_operation: all operators, for every sum of an odd function over the faces. C64_volumes: union, differences and symmetric difference. C64_complements. The operands are the regions that the builder gives for the operators I (first) and H (second). C64_volumes_of_results and C64_union_and_intersection relate the volumes of all results to those of the operands as given, for all executions, under the hypotheses of C52; C64_operands_example is a pair of intersecting tetrahedra. C64_volumes_of_sets: disjoint sets, subsets and equal sets. C64_from_every_point, C64_regions_from_every_point: the volume is the same from every origin; C64_positive: positive if a point is behind all faces. C64_convex_sign: convex bodies have volumes that are not negative, convex holes not positive; C64_convex_positive: positive if there is a boundary; C64_convex_union, C64_convex_union_exact: the union of convex bodies has at most the sum of their volumes, and exactly that if and only if they have no point in common off their boundaries. C64_volumes_of_expressions: expressions that put disjoint parts together and take parts away from what contains them, for all executions (adds_up in Spec_volume_expr), also with the side of a point found by shooting rays. Not proved: that the volume is the measure of the set."
  }
 ]
}