{
 "claims": [
  {
   "property": "C01",
   "status": "proved",
   "theorems": [
    "C01_union_is_lub",
    "C01_union_comm",
    "C01_union_assoc",
    "C01_union_idempotent",
    "C01_empty_right_neutral",
    "C01_empty_left_neutral"
   ],
   "note": ""
  },
  {
   "property": "C02",
   "status": "proved",
   "theorems": [
    "C02_mesh_box_tight"
   ],
   "note": ""
  },
  {
   "property": "C03",
   "status": "proved",
   "theorems": [
    "C03_transfer",
    "C03_boxes_tight_without_assign",
    "C03_assign_refuted",
    "C03_statements"
   ],
   "note": "The invariant holds for histories without copy assignment; C03_assign_refuted is the defect at mesh.cpp:126."
  },
  {
   "property": "C04",
   "status": "proved",
   "theorems": [
    "C04_sum_concatenates",
    "C04_indices"
   ],
   "note": ""
  },
  {
   "property": "C05",
   "status": "proved",
   "theorems": [
    "C05_sum_assoc",
    "C05_sum_units",
    "C05_empty_middle_refuted"
   ],
   "note": "Associativity needs non-empty left and middle operands; witness otherwise."
  },
  {
   "property": "C06",
   "status": "proved",
   "theorems": [
    "C06_box_of_sum",
    "C06_box_of_fold",
    "C06_fold_box_refuted"
   ],
   "note": "The fold loses the box of the first non-empty mesh (mesh.cpp:126 through 256); witness given."
  },
  {
   "property": "C07",
   "status": "proved",
   "theorems": [
    "C07_self_addition",
    "C07_copy"
   ],
   "note": ""
  },
  {
   "property": "C08",
   "status": "proved",
   "theorems": [
    "C08_equality_is_rotation",
    "C08_equality_implies_rotation",
    "C08_equivalence",
    "C08_neq_is_negation",
    "C08_repeated_index_refuted",
    "C08_degree_zero_throws"
   ],
   "note": "Exact on faces without repeated indices; witness that == and != are both true on a face with a repeated index."
  },
  {
   "property": "C09",
   "status": "proved",
   "theorems": [
    "C09_invert_orientation",
    "C09_rotate",
    "C09_full_turn"
   ],
   "note": ""
  },
  {
   "property": "C10",
   "status": "proved",
   "theorems": [
    "C10_construction",
    "C10_overide",
    "C10_offset"
   ],
   "note": ""
  },
  {
   "property": "C11",
   "status": "proved",
   "theorems": [
    "C11_convexity_value",
    "C11_convexity_throws",
    "C11_exact_on_integers"
   ],
   "note": ""
  },
  {
   "property": "C12",
   "status": "proved",
   "theorems": [
    "C12_fan",
    "C12_triangles"
   ],
   "note": ""
  },
  {
   "property": "C13",
   "status": "proved",
   "theorems": [
    "C13_export_first_triangles",
    "C13_outcome"
   ],
   "note": "States what the code does: one triangle per face, zero slots after."
  },
  {
   "property": "C14",
   "status": "proved",
   "theorems": [
    "C14_import",
    "C14_round_trip",
    "C14_degenerate_reversed",
    "C14_axis_aligned"
   ],
   "note": ""
  },
  {
   "property": "C15",
   "status": "proved",
   "theorems": [
    "C15_memory_safety",
    "C15_name_cut"
   ],
   "note": ""
  },
  {
   "property": "C16",
   "status": "proved",
   "theorems": [
    "C16_vector_laws",
    "C16_opposite_meaning",
    "C16_translate_back_refuted",
    "C16_exact_on_integers",
    "C16_points_exact",
    "C16_scale_exact",
    "C16_determinant_exact"
   ],
   "note": "Laws bit-exact; p+(q-p)==q refuted."
  },
  {
   "property": "C17",
   "status": "proved",
   "theorems": [
    "C17_degenerate_normal_is_nan",
    "C17_axis_normal"
   ],
   "note": ""
  },
  {
   "property": "C18",
   "status": "proved",
   "theorems": [
    "C18_stable",
    "C18_exact",
    "C18_error",
    "C18_tiny_refuted",
    "C18_lossy_refuted"
   ],
   "note": "Stable for zero or |x| >= 1e-317; subnormal witness 202403*2^-1074 otherwise. Error bound 6e-6 relative."
  },
  {
   "property": "C19",
   "status": "proved",
   "theorems": [
    "C19_size_round_trip",
    "C19_index_as_double",
    "C19_double_bound_refuted"
   ],
   "note": "2^53 bound is sharp (witness)."
  },
  {
   "property": "C20",
   "status": "proved",
   "theorems": [
    "C20_reading_inverts_writing",
    "C20_writing_inverts_reading"
   ],
   "note": ""
  },
  {
   "property": "C21",
   "status": "proved",
   "theorems": [
    "C21_off_round_trip"
   ],
   "note": "The file-stem name is set by the file handler: see C32."
  },
  {
   "property": "C22",
   "status": "proved",
   "theorems": [
    "C22_off_stable"
   ],
   "note": ""
  },
  {
   "property": "C23",
   "status": "proved",
   "theorems": [
    "C23_accepts_only_consistent",
    "C23_accepts_iff",
    "C23_content",
    "C23_exceptions",
    "C23_rejects_empty_line"
   ],
   "note": ""
  },
  {
   "property": "C24",
   "status": "proved",
   "theorems": [
    "C24_undefined_iff",
    "C24_short_face_padded"
   ],
   "note": "Includes the header-count wrap modulo 2^64, counted as undefined in the model."
  },
  {
   "property": "C25",
   "status": "proved",
   "theorems": [
    "C25_indices_unchecked",
    "C25_dangling_index"
   ],
   "note": ""
  },
  {
   "property": "C26",
   "status": "proved",
   "theorems": [
    "C26_obj_round_trip"
   ],
   "note": ""
  },
  {
   "property": "C27",
   "status": "proved",
   "theorems": [
    "C27_ordered_first_kept"
   ],
   "note": ""
  },
  {
   "property": "C28",
   "status": "proved",
   "theorems": [
    "C28_compaction",
    "C28_first_use_numbering"
   ],
   "note": ""
  },
  {
   "property": "C29",
   "status": "proved",
   "theorems": [
    "C29_undefined_iff",
    "C29_accepts_iff",
    "C29_decomposition",
    "C29_bad_vertex_throws"
   ],
   "note": ""
  },
  {
   "property": "C30",
   "status": "proved",
   "theorems": [
    "C30_index_ranges",
    "C30_defined_iff_nonempty"
   ],
   "note": ""
  },
  {
   "property": "C31",
   "status": "proved",
   "theorems": [
    "C31_exclude_partitions",
    "C31_add_mesh"
   ],
   "note": ""
  },
  {
   "property": "C32",
   "status": "proved",
   "theorems": [
    "C32_off_read_modes",
    "C32_off_read_value",
    "C32_off_write_modes",
    "C32_obj_read_modes",
    "C32_obj_write_modes",
    "C32_3ds_modes",
    "C32_3ds_use",
    "C32_raster_vector_read",
    "C32_raster_vector_write",
    "C32_missing_key_is_false",
    "C32_obj_read_value",
    "C32_obj_read_failures",
    "C32_obj_write_value",
    "C32_creatable",
    "C32_paths",
    "C32_stem",
    "C32_filename",
    "C32_3ds_values"
   ],
   "note": ""
  },
  {
   "property": "C33",
   "status": "proved",
   "theorems": [
    "C33_format_names",
    "C33_format_inverse",
    "C33_extension_check"
   ],
   "note": ""
  },
  {
   "property": "C34",
   "status": "proved",
   "theorems": [
    "C34_write_directory",
    "C34_off_scene_round_trip",
    "C34_no_terrain_no_scene",
    "C34_no_terrain_throws"
   ],
   "note": ""
  },
  {
   "property": "C35",
   "status": "proved",
   "theorems": [
    "C35_get_nodes",
    "C35_get_nodes_null",
    "C35_levels_refuted"
   ],
   "note": ""
  },
  {
   "property": "C36",
   "status": "proved",
   "theorems": [
    "C36_subtree_meshes",
    "C36_defined",
    "C36_undefined"
   ],
   "note": ""
  },
  {
   "property": "C37",
   "status": "proved",
   "theorems": [
    "C37_node_meshes_padding"
   ],
   "note": ""
  },
  {
   "property": "C38",
   "status": "proved",
   "theorems": [
    "C38_building_mesh"
   ],
   "note": ""
  },
  {
   "property": "C39",
   "status": "proved",
   "theorems": [
    "C39_pivot_declared",
    "C39_pivot_default",
    "C39_bbox",
    "C39_bbox_null",
    "C39_epsg",
    "C39_building_ids",
    "C39_terrain_id",
    "C39_missing_is_null"
   ],
   "note": ""
  },
  {
   "property": "C40",
   "status": "proved",
   "theorems": [
    "C40_adjacency",
    "C40_symmetric"
   ],
   "note": ""
  },
  {
   "property": "C41",
   "status": "proved",
   "theorems": [
    "C41_side",
    "C41_text",
    "C41_not_square",
    "C41_readable"
   ],
   "note": ""
  },
  {
   "property": "C42",
   "status": "proved",
   "theorems": [
    "C42_terminates",
    "C42_loop_result",
    "C42_undefined",
    "C42_flat_interior_refuted",
    "C42_ids",
    "C42_closed",
    "C42_stitch_refuted"
   ],
   "note": ""
  },
  {
   "property": "C43",
   "status": "proved",
   "theorems": [
    "C43_rounded",
    "C43_integers",
    "C43_doubled",
    "C43_edges_exist"
   ],
   "note": ""
  },
  {
   "property": "C44",
   "status": "proved",
   "theorems": [
    "C44_points_only",
    "C44_meaning",
    "C44_compose",
    "C44_translate_back",
    "C44_box_stale"
   ],
   "note": ""
  },
  {
   "property": "C45",
   "status": "proved",
   "theorems": [
    "C45_facet",
    "C45_triangle",
    "C45_polygon_refuted",
    "C45_height",
    "C45_in_plane_part",
    "C45_off_plane"
   ],
   "note": ""
  },
  {
   "property": "C46",
   "status": "proved",
   "theorems": [
    "C46_no_rotation",
    "C46_undefined",
    "C46_axis_undefined"
   ],
   "note": ""
  },
  {
   "property": "C47",
   "status": "proved",
   "theorems": [
    "C47_construction",
    "C47_outcome",
    "C47_prune"
   ],
   "note": ""
  },
  {
   "property": "C49",
   "status": "proved",
   "theorems": [
    "C49_plane_height",
    "C49_vertex_height"
   ],
   "note": ""
  },
  {
   "property": "C50",
   "status": "proved",
   "theorems": [
    "C50_rounded_example",
    "C50_face_height",
    "C50_brick_height",
    "C50_exact_sum",
    "C50_unique",
    "C50_shared_edge_refuted"
   ],
   "note": "Shared-edge doubling is the witness C50_shared_edge_refuted."
  },
  {
   "property": "C51",
   "status": "proved",
   "theorems": [
    "C51_orthoprint",
    "C51_vertices"
   ],
   "note": ""
  },
  {
   "property": "C52",
   "status": "proved",
   "theorems": [
    "C52_no_new_surface"
   ],
   "note": ""
  },
  {
   "property": "C53",
   "status": "proved",
   "theorems": [
    "C53_domain",
    "C53_rounded_union",
    "C53_domain_safe",
    "C53_outside_domain",
    "C53_domain_empty",
    "C53_box",
    "C53_encloses",
    "C53_boxes",
    "C53_least"
   ],
   "note": ""
  },
  {
   "property": "C54",
   "status": "proved",
   "theorems": [
    "C54_two_facets",
    "C54_many_facets",
    "C54_pieces_refuted",
    "C54_sample_refuted"
   ],
   "note": "Two facets: proved as stated. Many facets: proved when the new facet stays in one piece and is not inside the union; otherwise two witnesses (C54_pieces_refuted, C54_sample_refuted). CGAL operations are a hypothesis (kernel_ok) met by the concrete kernel strips."
  },
  {
   "property": "C55",
   "status": "proved",
   "theorems": [
    "C55_coverage",
    "C55_overlaps",
    "C55_coverage_refuted"
   ],
   "note": "Witness C55_coverage_refuted: an unrelated facet disappears."
  },
  {
   "property": "C56",
   "status": "proved",
   "theorems": [
    "C56_facets",
    "C56_bricks",
    "C56_footprints",
    "C56_equivalence",
    "C56_ignored",
    "C56_symmetry_refuted"
   ],
   "note": "Equivalence for rings without repeated vertices; CGAL's ring comparison is not symmetric otherwise (witness)."
  },
  {
   "property": "C57",
   "status": "proved",
   "theorems": [
    "C57_empty_left",
    "C57_mismatch",
    "C57_match",
    "C57_sum",
    "C57_no_exception",
    "C57_only_exception",
    "C57_plus_and_neq"
   ],
   "note": ""
  },
  {
   "property": "C58",
   "status": "proved",
   "theorems": [
    "C58_orthoproject",
    "C58_facets",
    "C58_total"
   ],
   "note": ""
  },
  {
   "property": "C59",
   "status": "proved",
   "theorems": [
    "C59_raster_in_bounds",
    "C59_empty_undefined",
    "C59_double_refuted"
   ],
   "note": "Exact arithmetic, any kernel whose intersections have vertices. C59_double_refuted: with doubles a facet inside the box gets a column too many and rasterisation throws out_of_range. Empty footprints are undefined."
  },
  {
   "property": "C60",
   "status": "proved",
   "theorems": [
    "C60_mean_of_heights",
    "C60_raster",
    "C60_contributions_unique",
    "C60_many_facets_refuted",
    "C60_scene"
   ],
   "note": "The read of the hit counter and its increment are unsequenced in the code; the model reads first."
  },
  {
   "property": "C61",
   "status": "proved",
   "theorems": [
    "C61_offset",
    "C61_once",
    "C61_doubles",
    "C61_infinite_refuted"
   ],
   "note": ""
  },
  {
   "property": "C62",
   "status": "proved",
   "theorems": [
    "C62_inside",
    "C62_outside",
    "C62_aliasing",
    "C62_default"
   ],
   "note": ""
  },
  {
   "property": "C63",
   "status": "proved",
   "theorems": [
    "C63_metadata_only",
    "C63_pixels_ignored"
   ],
   "note": ""
  },
  {
   "property": "C64",
   "status": "proved",
   "theorems": [
    "C64_aligned",
    "C64_unaligned_refuted"
   ],
   "note": ""
  },
  {
   "property": "C65",
   "status": "proved",
   "theorems": [
    "C65_round_trip",
    "C65_epsg_refuted",
    "C65_empty_undefined",
    "C65_failures",
    "C65_reads",
    "C65_refusals"
   ],
   "note": "The EPSG code read back is that of the geographic system (C65_epsg_refuted)."
  },
  {
   "property": "C66",
   "status": "proved",
   "theorems": [
    "C66_rows",
    "C66_empty_refuted",
    "C66_value",
    "C66_reads",
    "C66_unique",
    "C66_header"
   ],
   "note": ""
  },
  {
   "property": "C67",
   "status": "proved",
   "theorems": [
    "C67_ring",
    "C67_ring_translated",
    "C67_closed_loses_last",
    "C67_single_vertex",
    "C67_empty_throws",
    "C67_cases",
    "C67_polygon",
    "C67_empty_ring_throws",
    "C67_rounding_refuted"
   ],
   "note": "Witness C67_rounding_refuted: exact coordinates that are not doubles are rounded on export."
  },
  {
   "property": "C68",
   "status": "proved",
   "theorems": [
    "C68_round_trip",
    "C68_origin",
    "C68_heights",
    "C68_elevation_refuted",
    "C68_epsg",
    "C68_failures",
    "C68_layer",
    "C68_undefined",
    "C68_reads"
   ],
   "note": "Witness C68_elevation_refuted: with a non-zero reference elevation the plane read back is wrong."
  },
  {
   "property": "C70",
   "status": "proved",
   "theorems": [
    "C70_members",
    "C70_defined",
    "C70_extreme",
    "C70_plane_refuted",
    "C70_rounded",
    "C70_rounding_refuted"
   ],
   "note": "C70_extreme: exact maximum when the squared distances are doubles; C70_rounded: maximum up to 2^-47 for every list on a line whose squared distances are zero or in the normal range; C70_rounding_refuted and C70_plane_refuted show neither restriction can be dropped."
  },
  {
   "property": "C71",
   "status": "proved",
   "theorems": [
    "C71_three",
    "C71_line",
    "C71_tail",
    "C71_fourth_refuted"
   ],
   "note": ""
  },
  {
   "property": "C72",
   "status": "proved",
   "theorems": [
    "C72_mean",
    "C72_defined",
    "C72_translated",
    "C72_bounded",
    "C72_rounding_refuted",
    "C72_area_refuted"
   ],
   "note": "Exact arithmetic; in doubles the mean may leave the box (C72_rounding_refuted)."
  },
  {
   "property": "C73",
   "status": "proved",
   "theorems": [
    "C73_status",
    "C73_docopt",
    "C73_failure_hidden",
    "C73_format_failure_hidden",
    "C73_missing_scene"
   ],
   "note": "docopt's result is an argument of the model. Messages: C99."
  },
  {
   "property": "C74",
   "status": "proved",
   "theorems": [
    "C74_arguments",
    "C74_incomplete",
    "C74_cache_needed",
    "C74_confined",
    "C74_only_reads",
    "C74_complete",
    "C74_attributes",
    "C74_duals",
    "C74_attributes_text",
    "C74_no_driver",
    "C74_not_created",
    "C74_images_fail",
    "C74_path",
    "C74_scene_path",
    "C74_slash",
    "C74_slash_formats"
   ],
   "note": "C74_path: the paths the program makes of its texts. docopt's result and std::stod are arguments of the model; GDAL writes are recorded when they succeed, incomplete files are not. Attribute and dual-graph texts are proved for building names that are distinct and usable as file names."
  },
  {
   "property": "C75",
   "status": "proved",
   "theorems": [
    "C75_arguments",
    "C75_formats",
    "C75_incomplete",
    "C75_output_needed",
    "C75_complete",
    "C75_3ds",
    "C75_duals"
   ],
   "note": "Same model; 3DS output always throws (C75_3ds)."
  },
  {
   "property": "C76",
   "status": "proved",
   "theorems": [
    "C76_rounded",
    "C76_grid",
    "C76_print",
    "C76_grid_refuted",
    "C76_no_holes",
    "C76_holes_added",
    "C76_area_refuted"
   ],
   "note": "Defect: hole areas are added (C76_area_refuted)."
  },
  {
   "property": "C77",
   "status": "proved",
   "theorems": [
    "C77_points",
    "C77_vectors",
    "C77_mesh_equality",
    "C77_equivalence",
    "C77_name_ignored",
    "C77_nan_refuted"
   ],
   "note": "For faces without repeated or missing indices; NaN coordinates break reflexivity (C77_nan_refuted)."
  },
  {
   "property": "C78",
   "status": "proved",
   "theorems": [
    "C78_no_read_before_a_write",
    "C78_registered_iff_written",
    "C78_reads_once_registered",
    "C78_write_outcomes",
    "C78_datasets_left_open"
   ],
   "note": "GDAL itself is an argument; an empty driver table makes GDALOpen return null."
  },
  {
   "property": "C79",
   "status": "proved",
   "theorems": [
    "C79_obj_scene",
    "C79_no_terrain",
    "C79_obj_scene_round_trip"
   ],
   "note": "build (CGAL surface construction) and to_mesh are arguments."
  },
  {
   "property": "C80",
   "status": "proved",
   "theorems": [
    "C80_xml_scene",
    "C80_xml_defined",
    "C80_3ds_scene",
    "C80_3ds_defined",
    "C80_children_are_found",
    "C80_tree_path"
   ],
   "note": "lib3ds, TinyXML and CGAL surface construction are arguments; tree_* functions are characterised by C39."
  },
  {
   "property": "C81",
   "status": "proved",
   "theorems": [
    "C81_double",
    "C81_unambiguous",
    "C81_nearest_unique",
    "C81_size",
    "C81_doubles",
    "C81_sizes",
    "C81_degree",
    "C81_index"
   ],
   "note": "The C++ library's num_get and strtod (\"C\" locale) are modelled by Decimal.v; these theorems characterise the model by an independent grammar and by nearest-double minimality."
  },
  {
   "property": "C82",
   "status": "proved",
   "theorems": [
    "C82_double",
    "C82_digits_unique",
    "C82_zero",
    "C82_not_finite",
    "C82_integer",
    "C82_value"
   ],
   "note": "The C++ library's num_put (printf %g, precision 6) is modelled by Decimal.v; the sign of a NaN is not modelled."
  },
  {
   "property": "C85",
   "status": "proved",
   "theorems": [
    "C85_export",
    "C85_node",
    "C85_transform",
    "C85_round_trip",
    "C85_inward",
    "C85_made",
    "C85_soup",
    "C85_not_finite",
    "C85_off_scene",
    "C85_obj_scene"
   ],
   "note": "CGAL's orient_polygon_soup / polygon_soup_to_polygon_mesh / is_outward_oriented / reverse_face_orientations are fields of a record; the theorems name the contract they use."
  },
  {
   "property": "C86",
   "status": "proved",
   "theorems": [
    "C86_rounded",
    "C86_border_length",
    "C86_excess",
    "C86_closed",
    "C86_not_normalized",
    "C86_refuted"
   ],
   "note": "The square root is an argument of the exact sums; C86_rounded is about doubles."
  },
  {
   "property": "C87",
   "status": "proved",
   "theorems": [
    "C87_combinable",
    "C87_coplanar_facets",
    "C87_triangles",
    "C87_straight_corner_refuted",
    "C87_pruning"
   ],
   "note": "CGAL's coplanar test is the exact determinant."
  },
  {
   "property": "C88",
   "status": "proved",
   "theorems": [
    "C88_edge_lengths",
    "C88_count",
    "C88_exact",
    "C88_exact_length",
    "C88_circumference",
    "C88_face",
    "C88_print",
    "C88_footprint",
    "C88_axis",
    "C88_holes",
    "C88_holes_refuted"
   ],
   "note": "CGAL's to_double is taken as the nearest double; Boolean set operations are the kernel argument."
  },
  {
   "property": "C83",
   "status": "proved",
   "theorems": [
    "C83_bbox",
    "C83_point",
    "C83_vector",
    "C83_point_made",
    "C83_point_triples",
    "C83_point_moved",
    "C83_face",
    "C83_face_print",
    "C83_brick_print",
    "C83_foot_print",
    "C83_raster_print",
    "C83_camera",
    "C83_unode",
    "C83_scene",
    "C83_raster_moved",
    "C83_print_moved",
    "C83_camera_rotations",
    "C83_camera_calibration",
    "C83_camera_square"
   ],
   "note": "What is left in moved-from strings, arrays, vectors, polygons and surfaces is an arbitrary argument (a reference point left in a moved-from object is arbitrary; point objects themselves are modelled as the arrays they hold); Mesh, whose assignment drops the box, is in C03."
  },
  {
   "property": "C84",
   "status": "proved",
   "theorems": [
    "C84_sound",
    "C84_complete",
    "C84_copy_refuted",
    "C84_load_refuted"
   ],
   "note": "lib3ds_file_free dereferences its argument; constructors that throw make no object."
  },
  {
   "property": "C89",
   "status": "proved",
   "theorems": [
    "C89_mesh_is_off",
    "C89_mesh_reads",
    "C89_vector",
    "C89_bbox",
    "C89_foot_lines",
    "C89_foot",
    "C89_newline_refuted"
   ],
   "note": "CGAL's texts of polygons, planes and boxes are arguments (assumed to be one line)."
  },
  {
   "property": "C90",
   "status": "proved",
   "theorems": [
    "C90_union",
    "C90_not_finite",
    "C90_none",
    "C90_vanishes_refuted"
   ],
   "note": "CGAL's polygon soup, hole filling and Nef operations are records; the theorem names the laws it uses."
  },
  {
   "property": "C91",
   "status": "proved",
   "theorems": [
    "C91_directory",
    "C91_scene",
    "C91_bad_building",
    "C91_bad_terrain",
    "C91_no_directory"
   ],
   "note": ""
  },
  {
   "property": "C92",
   "status": "proved",
   "theorems": [
    "C92_to_off",
    "C92_to_obj",
    "C92_obj_to_off",
    "C92_off_to_obj"
   ],
   "note": "Meshes taken as they are: CGAL's orientation leaves the soup alone and builds it face by face (hypothesis taken_as_is); others follow C85, C90."
  },
  {
   "property": "C93",
   "status": "proved",
   "theorems": [
    "C93_line",
    "C93_normal",
    "C93_defined",
    "C93_straight_corner",
    "C93_text",
    "C93_text_defined",
    "C93_reads",
    "C93_pruned_undefined",
    "C93_program",
    "C93_format"
   ],
   "note": "CGAL's face normal is the fan sum of cross products, its to_double the nearest double; its point and vector texts are three doubles separated by spaces. The ids are those stored: prune numbers the facets."
  },
  {
   "property": "C94",
   "status": "proved",
   "theorems": [
    "C94_triangle",
    "C94_corner",
    "C94_total",
    "C94_polygon_refuted"
   ],
   "note": "approximate_sqrt is the square root of the nearest double."
  },
  {
   "property": "C95",
   "status": "proved",
   "theorems": [
    "C95_line",
    "C95_arguments",
    "C95_one_reading",
    "C95_status",
    "C95_help",
    "C95_refused",
    "C95_cache",
    "C95_idle",
    "C95_same",
    "C95_confined"
   ],
   "note": "docopt.cpp (external, master branch) is modelled function by function on the literal usage texts; no short option but -h exists. std::stod is a parameter."
  },
  {
   "property": "C96",
   "status": "proved",
   "theorems": [
    "C96_line",
    "C96_arguments",
    "C96_one_reading",
    "C96_status",
    "C96_help",
    "C96_refused",
    "C96_formats",
    "C96_formats_alone",
    "C96_output_needed",
    "C96_same"
   ],
   "note": "docopt.cpp (external, master branch) is modelled function by function on the literal usage texts."
  },
  {
   "property": "C97",
   "status": "proved",
   "theorems": [
    "C97_contains",
    "C97_not_finite",
    "C97_vertical",
    "C97_height",
    "C97_face",
    "C97_overloads",
    "C97_print",
    "C97_integers",
    "C97_overloads_refuted",
    "C97_elsewhere_refuted"
   ],
   "note": "The order of evaluation of the product's factors is not specified in C++; the model takes them from left to right, so a non-finite point is undefined before a vertical plane throws."
  },
  {
   "property": "C98",
   "status": "proved",
   "theorems": [
    "C98_self_addition",
    "C98_agrees_with_copy",
    "C98_footprints"
   ],
   "note": ""
  },
  {
   "property": "C99",
   "status": "proved",
   "theorems": [
    "C99_ortho_same",
    "C99_ortho_well",
    "C99_ortho_stopped",
    "C99_tells",
    "C99_ortho_arguments",
    "C99_warning_none",
    "C99_warning",
    "C99_warning_no_tree",
    "C99_format_same",
    "C99_format",
    "C99_format_hides",
    "C99_formats",
    "C99_format_arguments",
    "C99_echo",
    "C99_format_echo",
    "C99_format_echo_refuted",
    "C99_help",
    "C99_version",
    "C99_refused"
   ],
   "note": ""
  },
  {
   "property": "C100",
   "status": "proved",
   "theorems": [
    "C100_program_refuses",
    "C100_program_zero",
    "C100_program_undefined",
    "C100_reads",
    "C100_refuses",
    "C100_always",
    "C100_rest_ignored",
    "C100_stops",
    "C100_comma",
    "C100_total"
   ],
   "note": "glibc's strtod in the \"C\" locale is modelled; the programs never call setlocale."
  },
  {
   "property": "C101",
   "status": "proved",
   "theorems": [
    "C101_counters",
    "C101_flat",
    "C101_means"
   ],
   "note": "Double arithmetic (binary64) throughout, with the exact kernel's intersections abstract. The hypotheses exclude pixel sizes such as 0.3, for which C59_double_refuted shows the conclusion false. Means of three or more heights are not doubles in general: C101_means bounds the error of the running mean."
  },
  {
   "property": "C102",
   "status": "proved",
   "theorems": [
    "C102_layout",
    "C102_refused",
    "C102_reads",
    "C102_same_text"
   ],
   "note": "The layout of CGAL's OFF writer is taken from the files the project's tests compare with (ressources/tests/staff*.off); to_double is an argument."
  },
  {
   "property": "C103",
   "status": "proved",
   "theorems": [
    "C103_format",
    "C103_format_apart",
    "C103_ortho",
    "C103_ortho_apart"
   ],
   "note": "The project's file system, GDAL, CGAL and listing order are as in C74/C75; that GDAL overwrites an existing shape or image of the same name is outside the model (both programs' shapes and images are recorded as the sequence of stores)."
  },
  {
   "property": "C104",
   "status": "proved",
   "theorems": [
    "C104_there_and_back",
    "C104_obj_and_back"
   ],
   "note": "Composes C91/C92 (what one conversion writes) with C21 and C26-C28 (what the readers return) and with the idempotence of printing in six digits. What CGAL does to a mesh is the parameter `soup_tools`; `taken_as_is` says it keeps the mesh, for the meshes read at each step; the examples show tools and scenes for which every hypothesis holds. From an OBJ file, the theorem asks for an object called terrain and a complete directory listing."
  },
  {
   "property": "C105",
   "status": "proved",
   "theorems": [
    "C105_images"
   ],
   "note": "Composes C74 (which images a run stores and where), C78 (what the image of a raster is) and C101 (what the raster of a print on a lattice is). `plain_print` is the condition on a print, `shows` what its image must be. CGAL's polygon sets are the kernel parameter K with cuts that have vertices and lie inside (met by the concrete kernel `rects`); GDAL is the model of C78. For prints off the lattice the theorem still gives the number, place and order of the images."
  },
  {
   "property": "C106",
   "status": "proved",
   "theorems": [
    "C106_prints",
    "C106_blocks",
    "C106_heights",
    "C106_range",
    "C106_run",
    "C106_images",
    "C106_pixels"
   ],
   "note": "Composes C34/C91 (the scene read from the files), C85 (the surface built from a mesh has its polygons), C51 (the print of a surface), C52/C58 (occlusion only cuts) and C74/C105 (what a run stores). The clause on the ground covered is conditional on `kernel_ok`, the specification of CGAL's polygon sets of C52; those on names, planes and heights are not. `taken_as_is` is the condition of C92 on the polygon-soup functions. OFF directories and OBJ files only; the image clause is for prints on a lattice (`plain_print`, C105). That every visible polygon has a facet (coverage) is C53."
  }
 ]
}