{
 "claims": [
  {
   "property": "C01",
   "status": "proved",
   "theorems": [
    "geom1d_normal_form"
   ],
   "note": ""
  },
  {
   "property": "C02",
   "status": "proved",
   "theorems": [
    "geom1d_construction_union"
   ],
   "note": ""
  },
  {
   "property": "C03",
   "status": "proved",
   "theorems": [
    "geom1d_locate_exact"
   ],
   "note": "The docstring example locate(1.5) -> 0 is wrong, see geom1d_locate_docstring_refuted."
  },
  {
   "property": "C04",
   "status": "proved",
   "theorems": [
    "geom1d_ops_pointwise"
   ],
   "note": ""
  },
  {
   "property": "C05",
   "status": "proved",
   "theorems": [
    "geom1d_canonical",
    "geom1d_boolean_laws",
    "geom1d_named_laws"
   ],
   "note": ""
  },
  {
   "property": "C06",
   "status": "proved",
   "theorems": [
    "geom1d_buffer_minkowski"
   ],
   "note": "Exact at every point with closed-open intervals."
  },
  {
   "property": "C07",
   "status": "proved",
   "theorems": [
    "geom1d_buffer_erosion",
    "geom1d_opening"
   ],
   "note": ""
  },
  {
   "property": "C08",
   "status": "proved",
   "theorems": [
    "geom1d_measure_laws",
    "geom1d_measure_interval"
   ],
   "note": ""
  },
  {
   "property": "C09",
   "status": "proved",
   "theorems": [
    "geom1d_empty_bounded_exact"
   ],
   "note": "math.isfinite's conversion of huge rationals to float is not modelled."
  },
  {
   "property": "C10",
   "status": "proved",
   "theorems": [
    "geom1d_pieces_filter"
   ],
   "note": ""
  },
  {
   "property": "C11",
   "status": "proved",
   "theorems": [
    "geom1d_rejects_exactly"
   ],
   "note": ""
  },
  {
   "property": "C12",
   "status": "proved",
   "theorems": [
    "aabb_include_point_tightest"
   ],
   "note": ""
  },
  {
   "property": "C13",
   "status": "proved",
   "theorems": [
    "aabb_intersects_segment_exact",
    "aabb_intersects_aabb_exact",
    "aabb_empty_intersects_nothing"
   ],
   "note": ""
  },
  {
   "property": "C14",
   "status": "proved",
   "theorems": [
    "line_intersection_exact"
   ],
   "note": ""
  },
  {
   "property": "C15",
   "status": "proved",
   "theorems": [
    "line_fraction_exact"
   ],
   "note": ""
  },
  {
   "property": "C16",
   "status": "proved",
   "theorems": [
    "polygon_area_signed"
   ],
   "note": "The docstring's 'CCW = positive' is refuted by polygon_area_docstring_refuted."
  },
  {
   "property": "C17",
   "status": "proved",
   "theorems": [
    "locate_zero_iff_boundary"
   ],
   "note": ""
  },
  {
   "property": "C18",
   "status": "proved",
   "theorems": [
    "locate_winding",
    "locate_order_independent"
   ],
   "note": ""
  },
  {
   "property": "C19",
   "status": "proved",
   "theorems": [
    "locate_constant_on_paths"
   ],
   "note": ""
  },
  {
   "property": "C20",
   "status": "proved",
   "theorems": [
    "locate_convex",
    "rectangle_box"
   ],
   "note": ""
  },
  {
   "property": "C21",
   "status": "proved",
   "theorems": [
    "frangle_faithful"
   ],
   "note": ""
  },
  {
   "property": "C22",
   "status": "proved",
   "theorems": [
    "frangle_clockwise"
   ],
   "note": ""
  },
  {
   "property": "C23",
   "status": "proved",
   "theorems": [
    "segment_tree_stab_exact"
   ],
   "note": "The result is an iterator: a second pass is empty (segment_tree_iterator_refuted)."
  },
  {
   "property": "C24",
   "status": "proved",
   "theorems": [
    "quadtree_complete"
   ],
   "note": ""
  },
  {
   "property": "C25",
   "status": "proved",
   "theorems": [
    "cell_merger_conserves",
    "cell_merger_conserves_plane"
   ],
   "note": "Up to AssertionError: lines 110/134 can abort (cell_merger_line134_refuted, cell_merger_spikes_refuted); every normal result conserves."
  },
  {
   "property": "C26",
   "status": "proved",
   "theorems": [
    "cell_merged_total"
   ],
   "note": ""
  },
  {
   "property": "C27",
   "status": "proved",
   "theorems": [
    "cell_merger_check_refuted",
    "cell_merger_line134_refuted",
    "cell_merger_never_lost"
   ],
   "note": "The property is false of the code (refuted with a witness): for some set orders the final check fails. What holds is proved in cell_merger_never_lost: no inserted cell is ever lost."
  },
  {
   "property": "C28",
   "status": "proved",
   "theorems": [
    "canonicalize_cell_canonical"
   ],
   "note": ""
  },
  {
   "property": "C29",
   "status": "proved",
   "theorems": [
    "shear_no_horizontal",
    "unshear"
   ],
   "note": "for every list of segments, degenerate ones included"
  },
  {
   "property": "C30",
   "status": "proved",
   "theorems": [
    "nonparallel_intersection_exact",
    "nonparallel_intersection_none",
    "nonparallel_unique",
    "nonparallel_intersection_symmetric"
   ],
   "note": ""
  },
  {
   "property": "C31",
   "status": "proved",
   "theorems": [
    "sweep_reports_real",
    "sweep_rejects"
   ],
   "note": "the segment list is exact: all input segments through the point, each once"
  },
  {
   "property": "C32",
   "status": "proved",
   "theorems": [
    "sweep_finds_all",
    "active_fully_sorted"
   ],
   "note": "full Bentley-Ottmann correctness: no exception, termination within n(n+2) events, every crossing and every end on another segment is yielded, nothing else is; active_fully_sorted justifies modelling SortedList's bisections by linear scans"
  },
  {
   "property": "C33",
   "status": "proved",
   "theorems": [
    "general_direction"
   ],
   "note": ""
  },
  {
   "property": "C34",
   "status": "proved",
   "theorems": [
    "tracing_partitions",
    "arrangement_cells",
    "turning_inverse"
   ],
   "note": "Tracing itself raises AssertionError when it meets a dangling vertex; the theorems describe every run that returns."
  },
  {
   "property": "C35",
   "status": "proved",
   "theorems": [
    "cell_sums_zero"
   ],
   "note": ""
  },
  {
   "property": "C36",
   "status": "proved",
   "theorems": [
    "sample_points"
   ],
   "note": ""
  },
  {
   "property": "C37",
   "status": "proved",
   "theorems": [
    "spwh_locate_exact",
    "geom2d_locate_exact"
   ],
   "note": ""
  },
  {
   "property": "C38",
   "status": "proved",
   "theorems": [
    "set_operators",
    "set_operators_locate"
   ],
   "note": "over the real arrangement code, every set iteration order"
  },
  {
   "property": "C39",
   "status": "proved",
   "theorems": [
    "empty_shortcuts"
   ],
   "note": "over the real arrangement code"
  },
  {
   "property": "C40",
   "status": "proved",
   "theorems": [
    "union_any_number"
   ],
   "note": "over the real arrangement code"
  },
  {
   "property": "C41",
   "status": "proved",
   "theorems": [
    "simplify_degeneracies_ok"
   ],
   "note": ""
  },
  {
   "property": "C42",
   "status": "proved",
   "theorems": [
    "buffer_island_refuted",
    "buffer_direction_partial"
   ],
   "note": "The property is false of the code (refuted with a witness): a positive buffer deletes an island nested in a hole of another polygon. buffer_direction_partial proves everything else: the negative direction always, the positive one when no polygon is nested in a hole, and r=0."
  },
  {
   "property": "C43",
   "status": "proved",
   "theorems": [
    "geom2d_area_sum",
    "polygon_reorient"
   ],
   "note": ""
  },
  {
   "property": "C44",
   "status": "proved",
   "theorems": [
    "interside_lookups"
   ],
   "note": ""
  },
  {
   "property": "C45",
   "status": "proved",
   "theorems": [
    "limit_refuted",
    "limit_exact"
   ],
   "note": "The property is false of the code (refuted with a witness): limit raises AttributeError as soon as the first sheet of some intersection is selected; limit_exact states exactly when it works."
  },
  {
   "property": "C46",
   "status": "proved",
   "theorems": [
    "intersection_ids_unordered",
    "sheet_names_good",
    "one_intersection_per_pair"
   ],
   "note": "The float test for parallel planes is an arbitrary function of the two sheets."
  },
  {
   "property": "C47",
   "status": "proved",
   "theorems": [
    "make_fingers_band",
    "make_fingers_unbounded",
    "make_fingers_ends",
    "inter_side_frame"
   ],
   "note": "over the real arrangement code"
  },
  {
   "property": "C48",
   "status": "proved",
   "theorems": [
    "project_make_fingers"
   ],
   "note": "over the real arrangement code"
  },
  {
   "property": "C49",
   "status": "proved",
   "theorems": [
    "chosen_disjoint_from_opposite_ok"
   ],
   "note": ""
  },
  {
   "property": "C50",
   "status": "proved",
   "theorems": [
    "chosen_within_ok_slack",
    "check_now_sound",
    "check_now_exact"
   ],
   "note": ""
  },
  {
   "property": "C51",
   "status": "proved",
   "theorems": [
    "choose_local",
    "unchoose_local",
    "sheets_monotone"
   ],
   "note": "over the real arrangement code"
  },
  {
   "property": "C52",
   "status": "proved",
   "theorems": [
    "check_forced",
    "check_not_elided"
   ],
   "note": ""
  },
  {
   "property": "C53",
   "status": "proved",
   "theorems": [
    "choose_adds_only_ok",
    "removed_stays_removed"
   ],
   "note": "over the real arrangement code"
  },
  {
   "property": "C54",
   "status": "proved",
   "theorems": [
    "random_min_max_partitions",
    "random_min_max_consecutive"
   ],
   "note": "Exact arithmetic; float rounding is not modelled."
  },
  {
   "property": "C55",
   "status": "proved",
   "theorems": [
    "drawn_count_feasible"
   ],
   "note": ""
  },
  {
   "property": "C56",
   "status": "proved",
   "theorems": [
    "last_finger_alternates_refuted",
    "first_finger_alternates",
    "last_finger_alternates_partial"
   ],
   "note": "First half proved. The second half is false of the code (refuted with a witness): randint draws both parities; last_finger_alternates_partial states what holds when the parity is right."
  },
  {
   "property": "C57",
   "status": "proved",
   "theorems": [
    "fingers_tile_range",
    "fingers_range_chooses"
   ],
   "note": ""
  },
  {
   "property": "C58",
   "status": "proved",
   "theorems": [
    "clusters_disjoint_complete"
   ],
   "note": "Also: every cluster is connected by overlaps, i.e. not larger than necessary."
  },
  {
   "property": "C59",
   "status": "proved",
   "theorems": [
    "canned_ok_iff",
    "canned_failed_state",
    "canned_raises",
    "canned_creation_failure_refuted",
    "canned_show_refuted"
   ],
   "note": "With a failing creation return_on_failure gives UnboundLocalError and with show=True no run succeeds (refuted corners)."
  },
  {
   "property": "C60",
   "status": "proved",
   "theorems": [
    "cli_writes_only_checked",
    "cli_failure_is_key_error"
   ],
   "note": "Second half is false of the code: any failing step surfaces as KeyError, because the CLI parameters lack return_on_failure."
  },
  {
   "property": "C61",
   "status": "proved",
   "theorems": [
    "dxf_placement",
    "dxf_sheets_apart"
   ],
   "note": ""
  },
  {
   "property": "C62",
   "status": "proved",
   "theorems": [
    "empty_sheet_harmless_refuted",
    "dxf_empty_sheet_poisons"
   ],
   "note": "The property is false of the code (refuted with a witness)."
  },
  {
   "property": "C63",
   "status": "proved",
   "theorems": [
    "every_triangle_one_facet"
   ],
   "note": ""
  },
  {
   "property": "C64",
   "status": "proved",
   "theorems": [
    "facets_consumed_once"
   ],
   "note": "for every float arithmetic"
  },
  {
   "property": "C65",
   "status": "proved",
   "theorems": [
    "exact_conversion"
   ],
   "note": ""
  },
  {
   "property": "C66",
   "status": "proved",
   "theorems": [
    "frac_str_inj",
    "fstr_unambiguous",
    "fstr_empty_refuted"
   ],
   "note": "also for nested tuples, lists, sets and dicts; an empty set prints like an empty dict"
  },
  {
   "property": "C67",
   "status": "proved",
   "theorems": [
    "canned_result_disjoint",
    "canned_ok_choices"
   ],
   "note": ""
  },
  {
   "property": "C68",
   "status": "proved",
   "theorems": [
    "random_fingers_decide_all"
   ],
   "note": ""
  },
  {
   "property": "C69",
   "status": "proved",
   "theorems": [
    "arrangement_graph"
   ],
   "note": ""
  },
  {
   "property": "C70",
   "status": "proved",
   "theorems": [
    "every_face_sampled"
   ],
   "note": ""
  },
  {
   "property": "C71",
   "status": "proved",
   "theorems": [
    "operations_end",
    "buffer_ends"
   ],
   "note": ""
  },
  {
   "property": "C72",
   "status": "proved",
   "theorems": [
    "result_within_slices"
   ],
   "note": "end to end over the real arrangement code; Props/EndToEnd.v runs the whole model"
  },
  {
   "property": "C73",
   "status": "proved",
   "theorems": [
    "result_material"
   ],
   "note": ""
  },
  {
   "property": "C74",
   "status": "proved",
   "theorems": [
    "sheet_geometry"
   ],
   "note": "over the real arrangement code"
  },
  {
   "property": "C75",
   "status": "proved",
   "theorems": [
    "from_shapely_exact",
    "from_shapely_accepts",
    "from_shapely_not_finite"
   ],
   "note": "orient is an argument"
  },
  {
   "property": "C76",
   "status": "proved",
   "theorems": [
    "only_string_no_sheets",
    "only_sheets_option_fails"
   ],
   "note": ""
  },
  {
   "property": "C77",
   "status": "proved",
   "theorems": [
    "mesh_result_within_sections"
   ],
   "note": ""
  },
  {
   "property": "C78",
   "status": "proved",
   "theorems": [
    "buffer_reach"
   ],
   "note": "the constant K measures how good the square root is: K = 1 if exact, 1682/1681 for the code's fsqrt"
  },
  {
   "property": "C79",
   "status": "proved",
   "theorems": [
    "area_monotone",
    "area_region"
   ],
   "note": ""
  },
  {
   "property": "C80",
   "status": "proved",
   "theorems": [
    "results_flat"
   ],
   "note": "buffer: for geometries each of whose outer rings goes around every point at most once"
  },
  {
   "property": "C81",
   "status": "proved",
   "theorems": [
    "area_of_operators",
    "area_of_union"
   ],
   "note": "exact equalities of rationals, over the real arrangement code"
  },
  {
   "property": "C82",
   "status": "proved",
   "theorems": [
    "transformed_affine"
   ],
   "note": ""
  },
  {
   "property": "C83",
   "status": "proved",
   "theorems": [
    "buffer_exact"
   ],
   "note": "for geometries with simple rings, none inside a hole of another polygon (the code is wrong there, see C42); 0 < fsqrt 1 < fsqrt 2 < 2 fsqrt 1 is assumed of the square root"
  },
  {
   "property": "C84",
   "status": "proved",
   "theorems": [
    "results_sharp",
    "operators_everywhere"
   ],
   "note": "slit-free operands are assumed; rectangles and all results of the operators are slit-free, a list of two polygons with a common edge is not (slit_ex)"
  },
  {
   "property": "C85",
   "status": "proved",
   "theorems": [
    "boolean_laws"
   ],
   "note": ""
  },
  {
   "property": "C86",
   "status": "proved",
   "theorems": [
    "is_empty_exact",
    "disjoint_exact"
   ],
   "note": ""
  },
  {
   "property": "C87",
   "status": "proved",
   "theorems": [
    "operations_outcome",
    "operators_total",
    "union_may_fail_refuted"
   ],
   "note": "whether merging succeeds depends on the set order; union_may_fail_refuted gives three simple outlines where it does and does not"
  },
  {
   "property": "C88",
   "status": "proved",
   "theorems": [
    "jordan"
   ],
   "note": "Jordan curve theorem for polygons over the rationals; bow_tie_refuted shows the hypothesis is needed"
  },
  {
   "property": "C89",
   "status": "proved",
   "theorems": [
    "simple_polygons"
   ],
   "note": ""
  },
  {
   "property": "C90",
   "status": "proved",
   "theorems": [
    "ok_side_chosen",
    "no_one_sided_left"
   ],
   "note": ""
  },
  {
   "property": "C91",
   "status": "proved",
   "theorems": [
    "interactions_settled",
    "interactions_settled_result"
   ],
   "note": ""
  },
  {
   "property": "C92",
   "status": "proved",
   "theorems": [
    "canned_history"
   ],
   "note": ""
  },
  {
   "property": "C93",
   "status": "proved",
   "theorems": [
    "joints_filled"
   ],
   "note": "random_min_max in exact arithmetic"
  },
  {
   "property": "C94",
   "status": "proved",
   "theorems": [
    "cluster_to_largest"
   ],
   "note": ""
  },
  {
   "property": "C95",
   "status": "proved",
   "theorems": [
    "buffer_sharp"
   ],
   "note": "0 < fsqrt 1 < fsqrt 2 < 2 fsqrt 1 is assumed of the square root, as in C83"
  },
  {
   "property": "C96",
   "status": "proved",
   "theorems": [
    "buffer_everywhere"
   ],
   "note": "same hypotheses as C83; C83 excludes finitely many segments, C96 no point except those at exactly the distance"
  },
  {
   "property": "C97",
   "status": "proved",
   "theorems": [
    "result_sharp",
    "history_sharp"
   ],
   "note": "0 < fsqrt 1 < fsqrt 2 < 2 fsqrt 1 is assumed of the square root, as in C83"
  },
  {
   "property": "C98",
   "status": "proved",
   "theorems": [
    "result_within_slices_everywhere",
    "result_material_everywhere",
    "history_monotone"
   ],
   "note": "C72, C73 and C51 without exceptional points"
  },
  {
   "property": "C99",
   "status": "proved",
   "theorems": [
    "fingers_area"
   ],
   "note": "the normal of an interside is its direction turned by 90 degrees, as create_inter_side makes it"
  },
  {
   "property": "C100",
   "status": "proved",
   "theorems": [
    "joint_clearance"
   ],
   "note": "the tolerances are the float literals of the code, as exact rationals"
  },
  {
   "property": "C101",
   "status": "proved",
   "theorems": [
    "loose_removed",
    "reachable_kept"
   ],
   "note": "that no ring of the sheets turns back along itself is assumed, as in C97"
  },
  {
   "property": "C102",
   "status": "proved",
   "theorems": [
    "projection_is_shadow"
   ],
   "note": ""
  },
  {
   "property": "C103",
   "status": "proved",
   "theorems": [
    "ok_ranges_supported"
   ],
   "note": "unit direction: project_to_1d and make_fingers use different scales otherwise"
  },
  {
   "property": "C104",
   "status": "proved",
   "theorems": [
    "sheet_ok_narrowed"
   ],
   "note": "0 < fsqrt 1 < fsqrt 2 < 2 fsqrt 1 is assumed of the square root, as in C83; an upper bound: the buffer of an island in a hole loses points, C42"
  },
  {
   "property": "C105",
   "status": "proved",
   "theorems": [
    "irrelevant_given_up",
    "irrelevant_kept"
   ],
   "note": "as C104; irrelevant_kept assumes that the finger polygons are simple rings"
  },
  {
   "property": "C106",
   "status": "proved",
   "theorems": [
    "results_cuttable"
   ],
   "note": "0 < fsqrt 1 < fsqrt 2 < 2 fsqrt 1 is assumed of the square root, as in C83; bow_tie_crosses shows that an arbitrary outline need not be cuttable"
  },
  {
   "property": "C107",
   "status": "proved",
   "theorems": [
    "result_cuttable"
   ],
   "note": "that no ring of the sheets turns back along itself is assumed, as in C97"
  },
  {
   "property": "C108",
   "status": "proved",
   "theorems": [
    "dxf_no_crossing",
    "cli_no_crossing"
   ],
   "note": "as C107; no sheet may be empty (C62); exact coordinates, the floats written by the DXF library are not modelled"
  },
  {
   "property": "C109",
   "status": "proved",
   "theorems": [
    "mesh_faces_cuttable"
   ],
   "note": "numpy's projection of a triangle is an argument; that it has three corners is assumed"
  },
  {
   "property": "C110",
   "status": "proved",
   "theorems": [
    "mesh_drawing"
   ],
   "note": "as C108 and C109; that the rings shapely returns for a section do not turn back along themselves is assumed"
  },
  {
   "property": "C111",
   "status": "proved",
   "theorems": [
    "mesh_result_within_sections_everywhere"
   ],
   "note": "C77 without exceptional points; as C110"
  },
  {
   "property": "C112",
   "status": "proved",
   "theorems": [
    "joint_coordinate",
    "joint_iff_crossing"
   ],
   "note": "float64 as exact rationals; np.linalg.norm is assumed right on the cross products of the normals"
  },
  {
   "property": "C113",
   "status": "proved",
   "theorems": [
    "joint_band",
    "made_plate"
   ],
   "note": "as C112; trimesh's to_3D is assumed to be a rotation that takes the z axis to the normal"
  },
  {
   "property": "C114",
   "status": "proved",
   "theorems": [
    "fingers_in_space"
   ],
   "note": "as C112"
  },
  {
   "property": "C115",
   "status": "proved",
   "theorems": [
    "chosen_supported"
   ],
   "note": "support_radius > 1; faces are simple rings without nesting, sheet rings do not turn back along themselves"
  },
  {
   "property": "C116",
   "status": "proved",
   "theorems": [
    "fresh_no_collision",
    "fresh_no_collision_far_refuted"
   ],
   "note": "as C112 and C115; beyond 1000 from the joint's origin the property is false of the code (refuted with a witness)"
  },
  {
   "property": "C117",
   "status": "proved",
   "theorems": [
    "result_collisions"
   ],
   "note": "as C116; within 1000 of the joint's origin"
  },
  {
   "property": "C118",
   "status": "proved",
   "theorems": [
    "interactions_exact"
   ],
   "note": ""
  },
  {
   "property": "C119",
   "status": "proved",
   "theorems": [
    "cluster_decision",
    "multi_changes_near_overlaps"
   ],
   "note": ""
  },
  {
   "property": "C120",
   "status": "proved",
   "theorems": [
    "chosen_fingers_complete",
    "chosen_crossing_filled"
   ],
   "note": "0 < fsqrt 1 < fsqrt 2 < 2 fsqrt 1 is assumed of the square root and that no ring of the sheets turns back along itself, as in C97; space part: as C112"
  },
  {
   "property": "C121",
   "status": "proved",
   "theorems": [
    "mesh_in_space",
    "face_is_shadow",
    "slices_at",
    "mesh_crossing_filled"
   ],
   "note": "float64 as exact rationals; the sections have frames as trimesh documents them; norm is assumed right about the cross products of normals"
  },
  {
   "property": "C122",
   "status": "proved",
   "theorems": [
    "sheet_near_mesh"
   ],
   "note": "as C121; the unevenness of a facet is an upper bound on the distance of its corners from its plane"
  },
  {
   "property": "C123",
   "status": "proved",
   "theorems": [
    "crossing_settled"
   ],
   "note": "exact arithmetic (int() of a rational) as in C93; the square root and the sheets as in C120"
  },
  {
   "property": "C124",
   "status": "proved",
   "theorems": [
    "ray_queries",
    "ray_query_far_refuted"
   ],
   "note": ""
  },
  {
   "property": "C125",
   "status": "proved",
   "theorems": [
    "plain_kept",
    "plain_kept_in_space",
    "plain_island_refuted"
   ],
   "note": "0 < fsqrt 1 < fsqrt 2 < 2 fsqrt 1 is assumed of the square root and that no ring of the sheets turns back along itself, as in C97; space part: as C112; without the condition on the faces the property is false of the code (refuted with a witness)"
  },
  {
   "property": "C126",
   "status": "proved",
   "theorems": [
    "assembled_near_body"
   ],
   "note": "as C121 and C111; the solid is any set of points that the polygons of the sections are cuts of, 0 <= offset_tolerance <= thickness"
  },
  {
   "property": "C127",
   "status": "proved",
   "theorems": [
    "mesh_plain_kept",
    "mesh_collisions",
    "mesh_crossing_settled"
   ],
   "note": "as C121; C117, C123 and C125 with plates in the coordinates of the mesh; for the collisions the faces are assumed to be simple rings without nesting"
  },
  {
   "property": "C128",
   "status": "proved",
   "theorems": [
    "run_fails_only",
    "run_caught",
    "cli_fails_only"
   ],
   "note": "0 < fsqrt 1 < fsqrt 2 < 2 fsqrt 1 is assumed of the square root and that no ring of the sheets turns back along itself, as in C97; set and dict orders are permutations"
  },
  {
   "property": "C129",
   "status": "proved",
   "theorems": [
    "mesh_fails_only",
    "mesh_cli_fails_only",
    "space_mesh_fails_only"
   ],
   "note": "argsort returns indices of its argument, linspace and section_multiplane lists of the length asked for, every triangle is projected to three points (no NaN); rings of the sections do not turn back along themselves, as in C110; square root as in C128"
  },
  {
   "property": "C130",
   "status": "proved",
   "theorems": [
    "multi_fails_why",
    "run_fails_why",
    "multi_no_attribute_error_refuted",
    "multi_no_plain_exception_refuted"
   ],
   "note": "as C128; the two witnesses are states that pass check(), not complete runs"
  },
  {
   "property": "C131",
   "status": "proved",
   "theorems": [
    "cluster_taker"
   ],
   "note": "set and dict orders are permutations"
  },
  {
   "property": "C132",
   "status": "proved",
   "theorems": [
    "range_fingers"
   ],
   "note": "exact arithmetic (F() of a rational), as C54"
  },
  {
   "property": "C133",
   "status": "proved",
   "theorems": [
    "mpatch_fills",
    "sheet_shown"
   ],
   "note": "exact coordinates; matplotlib itself, alpha and line widths are not modelled"
  },
  {
   "property": "C134",
   "status": "proved",
   "theorems": [
    "joint_check_raises",
    "joint_check_why",
    "check_raises_why"
   ],
   "note": ""
  },
  {
   "property": "C135",
   "status": "proved",
   "theorems": [
    "random_min_max_rounded",
    "sum_check_passes",
    "dbl_error",
    "random_min_max_double"
   ],
   "note": ""
  },
  {
   "property": "C136",
   "status": "proved",
   "theorems": [
    "rounding_stops_run_refuted"
   ],
   "note": "The property is false of the code (refuted with a witness): with --min_finger_width 3.2 a range of length 9.6 with the same side at both ends must get three fingers, and for every seed the assertion of line 419 fails by 7e-16."
  },
  {
   "property": "C137",
   "status": "proved",
   "theorems": [
    "random_fingers_leave_little",
    "no_long_gap",
    "double_rounds"
   ],
   "note": ""
  },
  {
   "property": "C138",
   "status": "proved",
   "theorems": [
    "joints_filled_rounded",
    "crossing_settled_rounded"
   ],
   "note": ""
  },
  {
   "property": "C139",
   "status": "proved",
   "theorems": [
    "fstr_total_refuted",
    "fstr_outcome",
    "fstr_exact",
    "fastr_integer",
    "geom1d_repr_total"
   ],
   "note": "The property is false of the code (refuted with a witness): __fstr__ of a Geom1D passes the keyword approx to fastr, which takes none, so fstr and fastr raise TypeError for exactly the objects that contain a Geom1D that is not empty. The other theorems are the part that holds."
  },
  {
   "property": "C140",
   "status": "proved",
   "theorems": [
    "swapped_no_room",
    "swapped_widths_no_fingers",
    "swapped_widths_ignore_seed"
   ],
   "note": ""
  },
  {
   "property": "C141",
   "status": "proved",
   "theorems": [
    "map_or_geom_spec",
    "map_and_geom_spec",
    "map_sub_geom_spec",
    "map_and_spec",
    "map_or_spec",
    "map_or_geom_2d",
    "map_and_geom_2d",
    "map_sub_geom_2d"
   ],
   "note": ""
  },
  {
   "property": "C142",
   "status": "proved",
   "theorems": [
    "seed_in_range_canned",
    "seed_in_range",
    "seed_out_of_range_step",
    "seed_out_of_range_not_ok",
    "seed_out_of_range",
    "seed_out_of_range_raises"
   ],
   "note": "numpy's range check of the seed is the assumption random_state"
  },
  {
   "property": "C143",
   "status": "proved",
   "theorems": [
    "positions_within",
    "crossing_settled_within",
    "mesh_crossing_settled_double"
   ],
   "note": "as C138 and C127; the sheet geometry itself is exact"
  },
  {
   "property": "C144",
   "status": "proved",
   "theorems": [
    "zero_width_no_plan",
    "zero_width_needs_nothing_open"
   ],
   "note": ""
  },
  {
   "property": "C145",
   "status": "proved",
   "theorems": [
    "swapped_widths_run",
    "zero_width_run"
   ],
   "note": ""
  },
  {
   "property": "C146",
   "status": "proved",
   "theorems": [
    "dxf_names",
    "dxf_any"
   ],
   "note": ""
  },
  {
   "property": "C147",
   "status": "proved",
   "theorems": [
    "out_given",
    "out_beside",
    "stem_unique",
    "out_overwrites",
    "out_clash",
    "parse_written",
    "parse_parts",
    "out_error",
    "write_beside",
    "write_over",
    "read_same",
    "write_given",
    "read_nameless"
   ],
   "note": ""
  }
 ]
}