claim("C12", "proved", "aabb_include_point_tightest")
claim("C13", "proved", "aabb_intersects_segment_exact aabb_intersects_aabb_exact aabb_empty_intersects_nothing")
claim("C14", "proved", "line_intersection_exact")
claim("C15", "proved", "line_fraction_exact")
claim("C16", "proved", "polygon_area_signed", "The docstring's 'CCW = positive' is refuted by polygon_area_docstring_refuted.")
claim("C17", "proved", "locate_zero_iff_boundary")
claim("C18", "proved", "locate_winding locate_order_independent")
claim("C19", "proved", "locate_constant_on_paths")
claim("C21", "proved", "frangle_faithful")
claim("C22", "proved", "frangle_clockwise")
claim("C23", "proved", "segment_tree_stab_exact", "The result is an iterator: a second pass is empty (segment_tree_iterator_refuted).")
claim("C24", "proved", "quadtree_complete")
claim("C25", "proved", "cell_merger_conserves cell_merger_conserves_plane", "Up to AssertionError: lines 110/134 can abort (cell_merger_line134_refuted, cell_merger_spikes_refuted); every normal result conserves.")
claim("C26", "proved", "cell_merged_total")
claim("C28", "proved", "canonicalize_cell_canonical")
claim("C20", "proved", "locate_convex rectangle_box")
claim("C37", "proved", "spwh_locate_exact geom2d_locate_exact")
claim("C41", "proved", "simplify_degeneracies_ok")
claim("C43", "proved", "geom2d_area_sum polygon_reorient")
claim("C44", "proved", "interside_lookups")
claim("C45", "proved", "limit_refuted limit_exact", "The property is false of the code (refuted with a witness): limit raises AttributeError as soon as the first sheet of some intersection is selected; limit_exact states exactly when it works.")
claim("C46", "proved", "intersection_ids_unordered sheet_names_good one_intersection_per_pair", "The float test for parallel planes is an arbitrary function of the two sheets.")
claim("C49", "proved", "chosen_disjoint_from_opposite_ok")
claim("C50", "proved", "chosen_within_ok_slack check_now_sound check_now_exact")
claim("C52", "proved", "check_forced check_not_elided")

claim("C54", "proved", "random_min_max_partitions random_min_max_consecutive", "Exact arithmetic; float rounding is not modelled.")
claim("C55", "proved", "drawn_count_feasible")
claim("C56", "proved", "last_finger_alternates_refuted first_finger_alternates last_finger_alternates_partial", "First half proved. The second half is false of the code (refuted with a witness): randint draws both parities; last_finger_alternates_partial states what holds when the parity is right.")
claim("C57", "proved", "fingers_tile_range fingers_range_chooses")
claim("C58", "proved", "clusters_disjoint_complete", "Also: every cluster is connected by overlaps, i.e. not larger than necessary.")
claim("C59", "proved", "canned_ok_iff canned_failed_state canned_raises canned_creation_failure_refuted canned_show_refuted", "With a failing creation return_on_failure gives UnboundLocalError and with show=True no run succeeds (refuted corners).")
claim("C60", "proved", "cli_writes_only_checked cli_failure_is_key_error", "Second half is false of the code: any failing step surfaces as KeyError, because the CLI parameters lack return_on_failure.")
claim("C61", "proved", "dxf_placement dxf_sheets_apart")
claim("C62", "proved", "empty_sheet_harmless_refuted dxf_empty_sheet_poisons", "The property is false of the code (refuted with a witness).")
claim("C67", "proved", "canned_result_disjoint canned_ok_choices")
claim("C68", "proved", "random_fingers_decide_all")

claim("C29", "proved", "shear_no_horizontal unshear", "for every list of segments, degenerate ones included")
claim("C30", "proved", "nonparallel_intersection_exact nonparallel_intersection_none nonparallel_unique nonparallel_intersection_symmetric", "")
claim("C31", "proved", "sweep_reports_real sweep_rejects", "the segment list is exact: all input segments through the point, each once")
claim("C32", "proved", "sweep_finds_all active_fully_sorted", "full Bentley-Ottmann correctness: no exception, termination within n(n+2) events, every crossing and every end on another segment is yielded, nothing else is; active_fully_sorted justifies modelling SortedList's bisections by linear scans")
claim("C27", "proved", "cell_merger_check_refuted cell_merger_line134_refuted cell_merger_never_lost", "The property is false of the code (refuted with a witness): for some set orders the final check fails. What holds is proved in cell_merger_never_lost: no inserted cell is ever lost.")
claim("C33", "proved", "general_direction", "")
claim("C34", "proved", "tracing_partitions arrangement_cells turning_inverse", "Tracing itself raises AssertionError when it meets a dangling vertex; the theorems describe every run that returns.")
claim("C35", "proved", "cell_sums_zero", "")
claim("C36", "proved", "sample_points", "")
claim("C38", "proved", "set_operators set_operators_locate", "over the real arrangement code, every set iteration order")
claim("C39", "proved", "empty_shortcuts", "over the real arrangement code")
claim("C40", "proved", "union_any_number", "over the real arrangement code")
claim("C42", "proved", "buffer_island_refuted buffer_direction_partial", "The property is false of the code (refuted with a witness): a positive buffer deletes an island nested in a hole of another polygon. buffer_direction_partial proves everything else: the negative direction always, the positive one when no polygon is nested in a hole, and r=0.")
claim("C47", "proved", "make_fingers_band make_fingers_unbounded make_fingers_ends inter_side_frame", "over the real arrangement code")
claim("C48", "proved", "project_make_fingers", "over the real arrangement code")
claim("C51", "proved", "choose_local unchoose_local sheets_monotone", "over the real arrangement code")
claim("C53", "proved", "choose_adds_only_ok removed_stays_removed", "over the real arrangement code")
claim("C69", "proved", "arrangement_graph", "")
claim("C70", "proved", "every_face_sampled", "")
claim("C71", "proved", "operations_end buffer_ends", "")
claim("C72", "proved", "result_within_slices", "end to end over the real arrangement code; Props/EndToEnd.v runs the whole model")
claim("C73", "proved", "result_material", "")
claim("C63", "proved", "every_triangle_one_facet", "")
claim("C64", "proved", "facets_consumed_once", "for every float arithmetic")
claim("C66", "proved", "frac_str_inj fstr_unambiguous fstr_empty_refuted", "also for nested tuples, lists, sets and dicts; an empty set prints like an empty dict")
claim("C74", "proved", "sheet_geometry", "over the real arrangement code")
claim("C75", "proved", "from_shapely_exact from_shapely_accepts from_shapely_not_finite", "orient is an argument")
claim("C76", "proved", "only_string_no_sheets only_sheets_option_fails", "")
claim("C77", "proved", "mesh_result_within_sections", "")
claim("C78", "proved", "buffer_reach", "the constant K measures how good the square root is: K = 1 if exact, 1682/1681 for the code's fsqrt")
claim("C79", "proved", "area_monotone area_region", "")
claim("C80", "proved", "results_flat", "buffer: for geometries each of whose outer rings goes around every point at most once")
claim("C81", "proved", "area_of_operators area_of_union", "exact equalities of rationals, over the real arrangement code")
claim("C82", "proved", "transformed_affine", "")
claim("C83", "proved", "buffer_exact", "for geometries with simple rings, none inside a hole of another polygon (the code is wrong there, see C42); 0 < fsqrt 1 < fsqrt 2 < 2 fsqrt 1 is assumed of the square root")
claim("C84", "proved", "results_sharp operators_everywhere", "slit-free operands are assumed; rectangles and all results of the operators are slit-free, a list of two polygons with a common edge is not (slit_ex)")
claim("C85", "proved", "boolean_laws", "")
claim("C86", "proved", "is_empty_exact disjoint_exact", "")
claim("C87", "proved", "operations_outcome operators_total union_may_fail_refuted", "whether merging succeeds depends on the set order; union_may_fail_refuted gives three simple outlines where it does and does not")
claim("C88", "proved", "jordan", "Jordan curve theorem for polygons over the rationals; bow_tie_refuted shows the hypothesis is needed")
claim("C89", "proved", "simple_polygons", "")
claim("C90", "proved", "ok_side_chosen no_one_sided_left", "")
claim("C91", "proved", "interactions_settled interactions_settled_result", "")
claim("C92", "proved", "canned_history", "")
claim("C93", "proved", "joints_filled", "random_min_max in exact arithmetic")
claim("C94", "proved", "cluster_to_largest", "")
claim("C95", "proved", "buffer_sharp", "0 < fsqrt 1 < fsqrt 2 < 2 fsqrt 1 is assumed of the square root, as in C83")
claim("C96", "proved", "buffer_everywhere", "same hypotheses as C83; C83 excludes finitely many segments, C96 no point except those at exactly the distance")
claim("C97", "proved", "result_sharp history_sharp", "0 < fsqrt 1 < fsqrt 2 < 2 fsqrt 1 is assumed of the square root, as in C83")
claim("C98", "proved", "result_within_slices_everywhere result_material_everywhere history_monotone", "C72, C73 and C51 without exceptional points")
claim("C99", "proved", "fingers_area", "the normal of an interside is its direction turned by 90 degrees, as create_inter_side makes it")
claim("C100", "proved", "joint_clearance", "the tolerances are the float literals of the code, as exact rationals")
claim("C101", "proved", "loose_removed reachable_kept", "that no ring of the sheets turns back along itself is assumed, as in C97")
claim("C102", "proved", "projection_is_shadow", "")
claim("C103", "proved", "ok_ranges_supported", "unit direction: project_to_1d and make_fingers use different scales otherwise")
claim("C104", "proved", "sheet_ok_narrowed", "0 < fsqrt 1 < fsqrt 2 < 2 fsqrt 1 is assumed of the square root, as in C83; an upper bound: the buffer of an island in a hole loses points, C42")
claim("C105", "proved", "irrelevant_given_up irrelevant_kept", "as C104; irrelevant_kept assumes that the finger polygons are simple rings")
claim("C106", "proved", "results_cuttable", "0 < fsqrt 1 < fsqrt 2 < 2 fsqrt 1 is assumed of the square root, as in C83; bow_tie_crosses shows that an arbitrary outline need not be cuttable")
claim("C107", "proved", "result_cuttable", "that no ring of the sheets turns back along itself is assumed, as in C97")
claim("C108", "proved", "dxf_no_crossing cli_no_crossing", "as C107; no sheet may be empty (C62); exact coordinates, the floats written by the DXF library are not modelled")
claim("C109", "proved", "mesh_faces_cuttable", "numpy's projection of a triangle is an argument; that it has three corners is assumed")
claim("C110", "proved", "mesh_drawing", "as C108 and C109; that the rings shapely returns for a section do not turn back along themselves is assumed")
claim("C111", "proved", "mesh_result_within_sections_everywhere", "C77 without exceptional points; as C110")
claim("C112", "proved", "joint_coordinate joint_iff_crossing", "float64 as exact rationals; np.linalg.norm is assumed right on the cross products of the normals")
claim("C113", "proved", "joint_band made_plate", "as C112; trimesh's to_3D is assumed to be a rotation that takes the z axis to the normal")
claim("C114", "proved", "fingers_in_space", "as C112")
claim("C115", "proved", "chosen_supported", "support_radius > 1; faces are simple rings without nesting, sheet rings do not turn back along themselves")
claim("C116", "proved", "fresh_no_collision fresh_no_collision_far_refuted", "as C112 and C115; beyond 1000 from the joint's origin the property is false of the code (refuted with a witness)")
claim("C117", "proved", "result_collisions", "as C116; within 1000 of the joint's origin")
claim("C118", "proved", "interactions_exact", "")
claim("C119", "proved", "cluster_decision multi_changes_near_overlaps", "")
claim("C120", "proved", "chosen_fingers_complete chosen_crossing_filled", "0 < fsqrt 1 < fsqrt 2 < 2 fsqrt 1 is assumed of the square root and that no ring of the sheets turns back along itself, as in C97; space part: as C112")
claim("C121", "proved", "mesh_in_space face_is_shadow slices_at mesh_crossing_filled", "float64 as exact rationals; the sections have frames as trimesh documents them; norm is assumed right about the cross products of normals")
claim("C122", "proved", "sheet_near_mesh", "as C121; the unevenness of a facet is an upper bound on the distance of its corners from its plane")
claim("C123", "proved", "crossing_settled", "exact arithmetic (int() of a rational) as in C93; the square root and the sheets as in C120")
claim("C124", "proved", "ray_queries ray_query_far_refuted", "")
claim("C125", "proved", "plain_kept plain_kept_in_space plain_island_refuted", "0 < fsqrt 1 < fsqrt 2 < 2 fsqrt 1 is assumed of the square root and that no ring of the sheets turns back along itself, as in C97; space part: as C112; without the condition on the faces the property is false of the code (refuted with a witness)")
claim("C126", "proved", "assembled_near_body", "as C121 and C111; the solid is any set of points that the polygons of the sections are cuts of, 0 <= offset_tolerance <= thickness")
claim("C127", "proved", "mesh_plain_kept mesh_collisions mesh_crossing_settled", "as C121; C117, C123 and C125 with plates in the coordinates of the mesh; for the collisions the faces are assumed to be simple rings without nesting")
claim("C128", "proved", "run_fails_only run_caught cli_fails_only", "0 < fsqrt 1 < fsqrt 2 < 2 fsqrt 1 is assumed of the square root and that no ring of the sheets turns back along itself, as in C97; set and dict orders are permutations")
claim("C129", "proved", "mesh_fails_only mesh_cli_fails_only space_mesh_fails_only", "argsort returns indices of its argument, linspace and section_multiplane lists of the length asked for, every triangle is projected to three points (no NaN); rings of the sections do not turn back along themselves, as in C110; square root as in C128")
claim("C130", "proved", "multi_fails_why run_fails_why multi_no_attribute_error_refuted multi_no_plain_exception_refuted", "as C128; the two witnesses are states that pass check(), not complete runs")
claim("C131", "proved", "cluster_taker", "set and dict orders are permutations")
claim("C132", "proved", "range_fingers", "exact arithmetic (F() of a rational), as C54")
claim("C133", "proved", "mpatch_fills sheet_shown", "exact coordinates; matplotlib itself, alpha and line widths are not modelled")
claim("C134", "proved", "joint_check_raises joint_check_why check_raises_why", "")
claim("C135", "proved", "random_min_max_rounded sum_check_passes dbl_error random_min_max_double", "")
claim("C136", "proved", "rounding_stops_run_refuted", "The property is false of the code (refuted with a witness): with --min_finger_width 3.2 a range of length 9.6 with the same side at both ends must get three fingers, and for every seed the assertion of line 419 fails by 7e-16.")
claim("C137", "proved", "random_fingers_leave_little no_long_gap double_rounds", "")
claim("C138", "proved", "joints_filled_rounded crossing_settled_rounded", "")
claim("C139", "proved", "fstr_total_refuted fstr_outcome fstr_exact fastr_integer geom1d_repr_total", "The property is false of the code (refuted with a witness): __fstr__ of a Geom1D passes the keyword approx to fastr, which takes none, so fstr and fastr raise TypeError for exactly the objects that contain a Geom1D that is not empty. The other theorems are the part that holds.")
claim("C140", "proved", "swapped_no_room swapped_widths_no_fingers swapped_widths_ignore_seed", "")
claim("C141", "proved", "map_or_geom_spec map_and_geom_spec map_sub_geom_spec map_and_spec map_or_spec map_or_geom_2d map_and_geom_2d map_sub_geom_2d", "")
claim("C142", "proved", "seed_in_range_canned seed_in_range seed_out_of_range_step seed_out_of_range_not_ok seed_out_of_range seed_out_of_range_raises", "numpy's range check of the seed is the assumption random_state")
claim("C143", "proved", "positions_within crossing_settled_within mesh_crossing_settled_double", "as C138 and C127; the sheet geometry itself is exact")
claim("C144", "proved", "zero_width_no_plan zero_width_needs_nothing_open", "")
claim("C145", "proved", "swapped_widths_run zero_width_run", "")
claim("C146", "proved", "dxf_names dxf_any", "")
claim("C147", "proved", "out_given out_beside stem_unique out_overwrites out_clash parse_written parse_parts out_error write_beside write_over read_same write_given read_nameless", "")
