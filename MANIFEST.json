{
 "claims": [
  {
   "property": "C01",
   "status": "proved",
   "theorems": [
    "C01_merge_within_tolerance",
    "C01_empty_array_crashes",
    "C01_clusters_merged_exactly",
    "C01_sorting_exists"
   ],
   "note": ""
  },
  {
   "property": "C02",
   "status": "proved",
   "theorems": [
    "C02_duplicates_merged",
    "C02_tolerance_zero",
    "C02_no_duplicates_unchanged",
    "C02_nothing_merged_unchanged"
   ],
   "note": ""
  },
  {
   "property": "C03",
   "status": "proved",
   "theorems": [
    "C03_survivors_differ",
    "C03_survivors_separated_refuted",
    "C03_tolerance_zero_idempotent"
   ],
   "note": ""
  },
  {
   "property": "C04",
   "status": "proved",
   "theorems": [
    "C04_merge_keeps_faces",
    "C04_merge_index",
    "C04_unmerged_is_unchanged",
    "C04_empty_mesh_crashes"
   ],
   "note": ""
  },
  {
   "property": "C05",
   "status": "proved",
   "theorems": [
    "C05_extract_faces"
   ],
   "note": ""
  },
  {
   "property": "C06",
   "status": "proved",
   "theorems": [
    "C06_remove_unused",
    "C06_all_used_unchanged"
   ],
   "note": ""
  },
  {
   "property": "C07",
   "status": "proved",
   "theorems": [
    "C07_heal_triangles"
   ],
   "note": ""
  },
  {
   "property": "C08",
   "status": "proved",
   "theorems": [
    "C08_triangulate",
    "C08_integrals_kept",
    "C08_vector_area_kept"
   ],
   "note": ""
  },
  {
   "property": "C09",
   "status": "proved",
   "theorems": [
    "C09_add"
   ],
   "note": ""
  },
  {
   "property": "C10",
   "status": "proved",
   "theorems": [
    "C10_mirror_vertices",
    "C10_mirror_image_is_determined",
    "C10_mirror_involution",
    "C10_mirror_isometry",
    "C10_mirror_keeps_volume",
    "C10_mirror_boundary"
   ],
   "note": ""
  },
  {
   "property": "C11",
   "status": "proved",
   "theorems": [
    "C11_symmetrize",
    "C11_symmetric_before_merging"
   ],
   "note": ""
  },
  {
   "property": "C12",
   "status": "proved",
   "theorems": [
    "C12_flip_involution",
    "C12_normals_opposite",
    "C12_volume_changes_sign",
    "C12_triangles_stay_triangles",
    "C12_boundary_reversed"
   ],
   "note": ""
  },
  {
   "property": "C13",
   "status": "proved",
   "theorems": [
    "C13_remove_degenerated",
    "C13_one_face_kept",
    "C13_large_faces_kept",
    "C13_bad_tolerance"
   ],
   "note": ""
  },
  {
   "property": "C14",
   "status": "proved",
   "theorems": [
    "C14_face_properties",
    "C14_closed_forms"
   ],
   "note": ""
  },
  {
   "property": "C15",
   "status": "proved",
   "theorems": [
    "C15_translation",
    "C15_axis_translations",
    "C15_rotation",
    "C15_rotate_is_rotation",
    "C15_rotate_composes",
    "C15_distances",
    "C15_volume"
   ],
   "note": ""
  },
  {
   "property": "C16",
   "status": "proved",
   "theorems": [
    "C16_volume_exact",
    "C16_apex_is_free",
    "C16_scaling",
    "C16_bad_factor",
    "C16_translation",
    "C16_rotation",
    "C16_flip"
   ],
   "note": ""
  },
  {
   "property": "C17",
   "status": "proved",
   "theorems": [
    "C17_volume_depends_on_position_refuted",
    "C17_volume_differs_from_triangulated_refuted"
   ],
   "note": ""
  },
  {
   "property": "C18",
   "status": "proved",
   "theorems": [
    "C18_surface_integrals",
    "C18_integrals_are_determined"
   ],
   "note": ""
  },
  {
   "property": "C19",
   "status": "proved",
   "theorems": [
    "C19_products_right_iff",
    "C19_product_wrong_refuted",
    "C19_shell_products",
    "C19_shell_wrong_refuted"
   ],
   "note": ""
  },
  {
   "property": "C20",
   "status": "proved",
   "theorems": [
    "C20_plain_inertia",
    "C20_open_mesh_mass",
    "C20_open_mesh_center_refuted"
   ],
   "note": ""
  },
  {
   "property": "C21",
   "status": "proved",
   "theorems": [
    "C21_shell_inertia",
    "C21_area_positive"
   ],
   "note": ""
  },
  {
   "property": "C22",
   "status": "proved",
   "theorems": [
    "C22_bbox",
    "C22_squared_bbox",
    "C22_empty"
   ],
   "note": ""
  },
  {
   "property": "C23",
   "status": "proved",
   "theorems": [
    "C23_max_edge",
    "C23_quadrangles",
    "C23_triangle_gives_zero",
    "C23_mean_counts_four"
   ],
   "note": ""
  },
  {
   "property": "C24",
   "status": "proved",
   "theorems": [
    "C24_disciplined_histories",
    "C24_plain_histories"
   ],
   "note": ""
  },
  {
   "property": "C25",
   "status": "proved",
   "theorems": [
    "C25_scaling_stale",
    "C25_scaling_refuted"
   ],
   "note": ""
  },
  {
   "property": "C26",
   "status": "proved",
   "theorems": [
    "C26_merging_stale",
    "C26_heal_triangles_stale_refuted",
    "C26_degenerated_stale",
    "C26_flip_stale_refuted",
    "C26_heal_normals_stale_refuted"
   ],
   "note": ""
  },
  {
   "property": "C27",
   "status": "proved",
   "theorems": [
    "C27_tables",
    "C27_symmetric"
   ],
   "note": ""
  },
  {
   "property": "C28",
   "status": "proved",
   "theorems": [
    "C28_error"
   ],
   "note": ""
  },
  {
   "property": "C29",
   "status": "proved",
   "theorems": [
    "C29_boundaries",
    "C29_all_borders"
   ],
   "note": ""
  },
  {
   "property": "C30",
   "status": "proved",
   "theorems": [
    "C30_closed",
    "C30_converse",
    "C30_open_reported_closed_refuted"
   ],
   "note": ""
  },
  {
   "property": "C31",
   "status": "proved",
   "theorems": [
    "C31_heal_only_flips",
    "C31_heal_only_flips_cached",
    "C31_heal_terminates"
   ],
   "note": ""
  },
  {
   "property": "C32",
   "status": "proved",
   "theorems": [
    "C32_heal_orients"
   ],
   "note": ""
  },
  {
   "property": "C33",
   "status": "proved",
   "theorems": [
    "C33_heal_volume"
   ],
   "note": ""
  },
  {
   "property": "C34",
   "status": "proved",
   "theorems": [
    "C34_heal_twice_history",
    "C34_heal_twice"
   ],
   "note": ""
  },
  {
   "property": "C35",
   "status": "proved",
   "theorems": [
    "C35_no_boundary",
    "C35_verdict",
    "C35_later_boundaries_ignored",
    "C35_collapsed_missed_refuted",
    "C35_vertical_boundary_rejected_refuted"
   ],
   "note": ""
  },
  {
   "property": "C36",
   "status": "proved",
   "theorems": [
    "C36_fixed_axes_is_rotation",
    "C36_fixed_axes_is_rodrigues",
    "C36_zero_angles_is_identity",
    "C36_cardan_is_rotation",
    "C36_cardan_is_transpose",
    "C36_conventions"
   ],
   "note": ""
  },
  {
   "property": "C37",
   "status": "proved",
   "theorems": [
    "C37_normal_and_rotation_linked",
    "C37_normal_stays_unit",
    "C37_new",
    "C37_rotate",
    "C37_set_parameters",
    "C37_set_angles",
    "C37_assigned_normal_refuted"
   ],
   "note": ""
  },
  {
   "property": "C38",
   "status": "proved",
   "theorems": [
    "C38_angles_roundtrip",
    "C38_normal_roundtrip"
   ],
   "note": ""
  },
  {
   "property": "C39",
   "status": "proved",
   "theorems": [
    "C39_intersection",
    "C39_same_side_raises",
    "C39_edge_in_plane_is_nan"
   ],
   "note": ""
  },
  {
   "property": "C40",
   "status": "proved",
   "theorems": [
    "C40_projection_on_plane",
    "C40_points_of_plane_fixed",
    "C40_idempotent",
    "C40_nearest",
    "C40_signed_distance",
    "C40_distance_sign",
    "C40_origin"
   ],
   "note": ""
  },
  {
   "property": "C41",
   "status": "proved",
   "theorems": [
    "C41_horizontal_planes",
    "C41_third_coordinate",
    "C41_in_plane_coordinates_refuted"
   ],
   "note": ""
  },
  {
   "property": "C42",
   "status": "proved",
   "theorems": [
    "C42_flip_is_central_symmetry",
    "C42_same_plane_iff",
    "C42_normal_reversed"
   ],
   "note": ""
  },
  {
   "property": "C43",
   "status": "proved",
   "theorems": [
    "C43_cardan_is_rotation",
    "C43_cardan_is_product",
    "C43_quat_is_rotation",
    "C43_cardan_quat_unit",
    "C43_axis_angle_quat_unit"
   ],
   "note": ""
  },
  {
   "property": "C44",
   "status": "proved",
   "theorems": [
    "C44_cardan_quat_rotmat",
    "C44_axis_angle_is_rodrigues",
    "C44_axis_angle_cardan"
   ],
   "note": ""
  },
  {
   "property": "C45",
   "status": "proved",
   "theorems": [
    "C45_rotmat_roundtrip",
    "C45_angles_roundtrip",
    "C45_angles_range",
    "C45_quat_to_cardan"
   ],
   "note": ""
  },
  {
   "property": "C46",
   "status": "proved",
   "theorems": [
    "C46_rotmat_roundtrip",
    "C46_quat_roundtrip"
   ],
   "note": ""
  },
  {
   "property": "C47",
   "status": "proved",
   "theorems": [
    "C47_roundtrip",
    "C47_cutoff_is_identity",
    "C47_cutoff_loses_rotation_refuted",
    "C47_rotmat",
    "C47_cardan"
   ],
   "note": ""
  },
  {
   "property": "C48",
   "status": "proved",
   "theorems": [
    "C48_partition",
    "C48_refused",
    "C48_of_clipper"
   ],
   "note": ""
  },
  {
   "property": "C49",
   "status": "proved",
   "theorems": [
    "C49_under",
    "C49_alternating_kept_above"
   ],
   "note": ""
  },
  {
   "property": "C50",
   "status": "proved",
   "theorems": [
    "C50_region"
   ],
   "note": ""
  },
  {
   "property": "C51",
   "status": "proved",
   "theorems": [
    "C51_outcomes",
    "C51_exact_tolerance"
   ],
   "note": ""
  },
  {
   "property": "C52",
   "status": "proved",
   "theorems": [
    "C52_ordered",
    "C52_clipper",
    "C52_closed"
   ],
   "note": ""
  },
  {
   "property": "C53",
   "status": "proved",
   "theorems": [
    "C53_no_crossing_face"
   ],
   "note": ""
  },
  {
   "property": "C54",
   "status": "proved",
   "theorems": [
    "C54_vertices_above"
   ],
   "note": ""
  },
  {
   "property": "C55",
   "status": "proved",
   "theorems": [
    "C55_parallel_axis",
    "C55_formula"
   ],
   "note": ""
  },
  {
   "property": "C56",
   "status": "proved",
   "theorems": [
    "C56_at_cog_right_iff",
    "C56_truth_subtracts",
    "C56_same_point_twice",
    "C56_away_and_back"
   ],
   "note": ""
  },
  {
   "property": "C57",
   "status": "proved",
   "theorems": [
    "C57_rectangular_prism",
    "C57_cube",
    "C57_pyramid",
    "C57_isosceles_wedge",
    "C57_cylinder",
    "C57_elliptical_cylinder",
    "C57_cone",
    "C57_ellipsoid",
    "C57_sphere",
    "C57_torus",
    "C57_hollow_cylinder",
    "C57_hollow_sphere",
    "C57_cone_shell",
    "C57_frustum_shell",
    "C57_lateral_shell",
    "C57_spherical_shell",
    "C57_hemispherical_shell",
    "C57_rotational_array"
   ],
   "note": ""
  },
  {
   "property": "C58",
   "status": "proved",
   "theorems": [
    "C58_hemisphere_wrong",
    "C58_hemisphere_truth",
    "C58_two_hemispheres",
    "C58_closed_cylinder_wrong",
    "C58_closed_cylinder_truth",
    "C58_right_angle_wedge_wrong",
    "C58_right_angle_wedge_truth"
   ],
   "note": ""
  },
  {
   "property": "C59",
   "status": "proved",
   "theorems": [
    "C59_solids_admissible",
    "C59_hollow_admissible",
    "C59_shells_admissible",
    "C59_closed_cylinder_admissible_iff",
    "C59_flat_closed_cylinder_refuted"
   ],
   "note": ""
  },
  {
   "property": "C60",
   "status": "proved",
   "theorems": [
    "C60_total",
    "C60_moments",
    "C60_fan",
    "C60_start",
    "C60_reverse",
    "C60_hydrostatics",
    "C60_waterline"
   ],
   "note": ""
  },
  {
   "property": "C61",
   "status": "proved",
   "theorems": [
    "C61_product",
    "C61_waterline",
    "C61_symmetric",
    "C61_refuted"
   ],
   "note": ""
  },
  {
   "property": "C62",
   "status": "proved",
   "theorems": [
    "C62_stiffness",
    "C62_waterline"
   ],
   "note": ""
  },
  {
   "property": "C63",
   "status": "proved",
   "theorems": [
    "C63_centers",
    "C63_moved"
   ],
   "note": ""
  },
  {
   "property": "C64",
   "status": "proved",
   "theorems": [
    "C64_forward_perpendicular",
    "C64_waterline"
   ],
   "note": ""
  },
  {
   "property": "C65",
   "status": "proved",
   "theorems": [
    "C65_result",
    "C65_travel",
    "C65_honest",
    "C65_wall_sided"
   ],
   "note": ""
  },
  {
   "property": "C66",
   "status": "proved",
   "theorems": [
    "C66_failure",
    "C66_original_error_lost",
    "C66_dry"
   ],
   "note": ""
  },
  {
   "property": "C67",
   "status": "proved",
   "theorems": [
    "C67_result",
    "C67_failure",
    "C67_rotation",
    "C67_travel",
    "C67_honest"
   ],
   "note": ""
  },
  {
   "property": "C68",
   "status": "proved",
   "theorems": [
    "C68_round_trip",
    "C68_range",
    "C68_same_text",
    "C68_too_large",
    "C68_no_face"
   ],
   "note": ""
  },
  {
   "property": "C69",
   "status": "proved",
   "theorems": [
    "C69_round_trip",
    "C69_same_text"
   ],
   "note": ""
  },
  {
   "property": "C70",
   "status": "proved",
   "theorems": [
    "C70_round_trip",
    "C70_same_text",
    "C70_many_faces",
    "C70_few_faces",
    "C70_no_face"
   ],
   "note": ""
  },
  {
   "property": "C71",
   "status": "proved",
   "theorems": [
    "C71_round_trip",
    "C71_few_faces"
   ],
   "note": ""
  },
  {
   "property": "C72",
   "status": "proved",
   "theorems": [
    "C72_round_trip",
    "C72_same_text",
    "C72_one_vertex",
    "C72_too_large",
    "C72_symmetric"
   ],
   "note": ""
  },
  {
   "property": "C73",
   "status": "proved",
   "theorems": [
    "C73_read",
    "C73_read_scientific",
    "C73_bounded",
    "C73_bounded_scientific",
    "C73_idempotent",
    "C73_idempotent_scientific",
    "C73_one_text"
   ],
   "note": ""
  },
  {
   "property": "C74",
   "status": "proved",
   "theorems": [
    "C74_file",
    "C74_layout",
    "C74_alters_quads",
    "C74_triangles_unchanged",
    "C74_invalid"
   ],
   "note": ""
  },
  {
   "property": "C75",
   "status": "proved",
   "theorems": [
    "C75_known",
    "C75_one_format",
    "C75_loads",
    "C75_no_file",
    "C75_unknown",
    "C75_capitals",
    "C75_extension",
    "C75_dat_unknown",
    "C75_read_only",
    "C75_writes",
    "C75_one_file",
    "C75_round_trip_MAR",
    "C75_round_trip_NEM",
    "C75_round_trip_NAT",
    "C75_round_trip_GDF",
    "C75_round_trip_PNL",
    "C75_round_trip_HST",
    "C75_round_trip_TEC",
    "C75_round_trip_DAT",
    "C75_dat_elsewhere"
   ],
   "note": ""
  },
  {
   "property": "C76",
   "status": "proved",
   "theorems": [
    "C76_listed",
    "C76_others",
    "C76_values"
   ],
   "note": ""
  },
  {
   "property": "C77",
   "status": "proved",
   "theorems": [
    "C77_order",
    "C77_heal_normals_ignored",
    "C77_nothing",
    "C77_moved",
    "C77_mirrored_then_moved",
    "C77_position",
    "C77_displacement",
    "C77_gravity",
    "C77_balanced"
   ],
   "note": ""
  },
  {
   "property": "C78",
   "status": "proved",
   "theorems": [
    "C78_name",
    "C78_same_file",
    "C78_named",
    "C78_input_format",
    "C78_extension_case",
    "C78_dat",
    "C78_failure",
    "C78_not_asked",
    "C78_other_files",
    "C78_written",
    "C78_dat_name",
    "C78_unknown_format",
    "C78_cannot_be_written"
   ],
   "note": ""
  },
  {
   "property": "C79",
   "status": "proved",
   "theorems": [
    "C79_axis_angle_read",
    "C79_identity_raises"
   ],
   "note": ""
  },
  {
   "property": "C80",
   "status": "proved",
   "theorems": [
    "C80_heal_with_cached_properties_refuted"
   ],
   "note": ""
  },
  {
   "property": "C81",
   "status": "proved",
   "theorems": [
    "C81_pinched_loses"
   ],
   "note": ""
  },
  {
   "property": "C82",
   "status": "proved",
   "theorems": [
    "C82_waterline",
    "C82_balanced"
   ],
   "note": ""
  },
  {
   "property": "C83",
   "status": "proved",
   "theorems": [
    "C83_exact"
   ],
   "note": ""
  },
  {
   "property": "C84",
   "status": "proved",
   "theorems": [
    "C84_polygons"
   ],
   "note": ""
  },
  {
   "property": "C85",
   "status": "proved",
   "theorems": [
    "C85_displacement",
    "C85_lid",
    "C85_wet_surface"
   ],
   "note": ""
  },
  {
   "property": "C86",
   "status": "proved",
   "theorems": [
    "C86_force",
    "C86_moment"
   ],
   "note": ""
  },
  {
   "property": "C87",
   "status": "proved",
   "theorems": [
    "C87_outcomes",
    "C87_projection"
   ],
   "note": ""
  },
  {
   "property": "C88",
   "status": "proved",
   "theorems": [
    "C88_inertia",
    "C88_refuted"
   ],
   "note": ""
  },
  {
   "property": "C89",
   "status": "proved",
   "theorems": [
    "C89_dimensions",
    "C89_refuted"
   ],
   "note": ""
  },
  {
   "property": "C90",
   "status": "proved",
   "theorems": [
    "C90_spurious_roll"
   ],
   "note": ""
  },
  {
   "property": "C91",
   "status": "proved",
   "theorems": [
    "C91_defined_by_numbers",
    "C91_defined_by_key",
    "C91_not_defined",
    "C91_chosen_by_key",
    "C91_chosen_by_number",
    "C91_chosen_by_four",
    "C91_number_out_of_range",
    "C91_unknown_key",
    "C91_not_a_number",
    "C91_wrong_count",
    "C91_points",
    "C91_documented",
    "C91_documented_refuted"
   ],
   "note": ""
  },
  {
   "property": "C92",
   "status": "proved",
   "theorems": [
    "C92_conversion",
    "C92_mar_to_nem"
   ],
   "note": ""
  },
  {
   "property": "C93",
   "status": "proved",
   "theorems": [
    "C93_round_trip",
    "C93_layout",
    "C93_same_text",
    "C93_no_face",
    "C93_two_bodies_refuted"
   ],
   "note": ""
  },
  {
   "property": "C94",
   "status": "proved",
   "theorems": [
    "C94_round_trip",
    "C94_layout",
    "C94_same_text",
    "C94_no_vertex"
   ],
   "note": ""
  },
  {
   "property": "C95",
   "status": "proved",
   "theorems": [
    "C95_round_trip",
    "C95_layout",
    "C95_again",
    "C95_no_vertex",
    "C95_name_refuted"
   ],
   "note": ""
  },
  {
   "property": "C96",
   "status": "proved",
   "theorems": [
    "C96_reads",
    "C96_corners",
    "C96_empty",
    "C96_version",
    "C96_no_version",
    "C96_numbering_refuted"
   ],
   "note": ""
  },
  {
   "property": "C97",
   "status": "proved",
   "theorems": [
    "C97_read",
    "C97_header"
   ],
   "note": ""
  },
  {
   "property": "C98",
   "status": "proved",
   "theorems": [
    "C98_read"
   ],
   "note": ""
  },
  {
   "property": "C99",
   "status": "proved",
   "theorems": [
    "C99_one_body",
    "C99_second_body",
    "C99_redefined",
    "C99_no_frame",
    "C99_frame_blank",
    "C99_written",
    "C99_directory",
    "C99_unknown_node_refuted"
   ],
   "note": ""
  },
  {
   "property": "C100",
   "status": "proved",
   "theorems": [
    "C100_vtp",
    "C100_vtu",
    "C100_cells",
    "C100_vtu_improper",
    "C100_vtu_few",
    "C100_exact",
    "C100_again",
    "C100_distinct_refuted",
    "C100_quick_save"
   ],
   "note": ""
  },
  {
   "property": "C101",
   "status": "proved",
   "theorems": [
    "C101_polygons",
    "C101_large",
    "C101_loaded",
    "C101_segments"
   ],
   "note": ""
  },
  {
   "property": "C102",
   "status": "proved",
   "theorems": [
    "C102_loaded",
    "C102_other_version",
    "C102_other_file",
    "C102_empty_scene"
   ],
   "note": ""
  },
  {
   "property": "C103",
   "status": "proved",
   "theorems": [
    "C103_corners",
    "C103_shared",
    "C103_empty"
   ],
   "note": ""
  },
  {
   "property": "C104",
   "status": "proved",
   "theorems": [
    "C104_loaded",
    "C104_no_nodes",
    "C104_two_meshes_refuted"
   ],
   "note": ""
  },
  {
   "property": "C105",
   "status": "proved",
   "theorems": [
    "C105_values",
    "C105_warnings",
    "C105_note",
    "C105_failure",
    "C105_columns_refuted"
   ],
   "note": ""
  },
  {
   "property": "C106",
   "status": "proved",
   "theorems": [
    "C106_inertia",
    "C106_mesh"
   ],
   "note": ""
  },
  {
   "property": "C107",
   "status": "proved",
   "theorems": [
    "C107_loaded",
    "C107_few",
    "C107_no_node",
    "C107_numbers_refuted",
    "C107_integer_refuted"
   ],
   "note": ""
  },
  {
   "property": "C108",
   "status": "proved",
   "theorems": [
    "C108_motion",
    "C108_strength",
    "C108_balance",
    "C108_added",
    "C108_shared_refuted",
    "C108_twice_refuted",
    "C108_about_point_refuted",
    "C108_own_forces"
   ],
   "note": ""
  },
  {
   "property": "C109",
   "status": "proved",
   "theorems": [
    "C109_default",
    "C109_given",
    "C109_given_refuted",
    "C109_setter"
   ],
   "note": ""
  },
  {
   "property": "C110",
   "status": "proved",
   "theorems": [
    "C110_agree",
    "C110_accepted",
    "C110_inertia",
    "C110_inertia_refuted"
   ],
   "note": ""
  },
  {
   "property": "C111",
   "status": "proved",
   "theorems": [
    "C111_displacement"
   ],
   "note": ""
  },
  {
   "property": "C112",
   "status": "proved",
   "theorems": [
    "C112_result",
    "C112_ends",
    "C112_single_refuted"
   ],
   "note": ""
  },
  {
   "property": "C113",
   "status": "proved",
   "theorems": [
    "C113_balance",
    "C113_stale_refuted"
   ],
   "note": ""
  },
  {
   "property": "C114",
   "status": "proved",
   "theorems": [
    "C114_reset",
    "C114_center",
    "C114_center_refuted"
   ],
   "note": ""
  },
  {
   "property": "C115",
   "status": "proved",
   "theorems": [
    "C115_data_follow"
   ],
   "note": ""
  },
  {
   "property": "C116",
   "status": "proved",
   "theorems": [
    "C116_taken",
    "C116_refused",
    "C116_kept",
    "C116_ranges"
   ],
   "note": ""
  },
  {
   "property": "C117",
   "status": "proved",
   "theorems": [
    "C117_values",
    "C117_residuals",
    "C117_columns_refuted"
   ],
   "note": ""
  },
  {
   "property": "C118",
   "status": "proved",
   "theorems": [
    "C118_set",
    "C118_succeeds",
    "C118_kept",
    "C118_history",
    "C118_option",
    "C118_told",
    "C118_failure",
    "C118_failure_tol",
    "C118_not_made",
    "C118_in_place",
    "C118_hydrostatics",
    "C118_default_refuted"
   ],
   "note": ""
  },
  {
   "property": "C119",
   "status": "proved",
   "theorems": [
    "C119_own",
    "C119_call",
    "C119_history",
    "C119_new",
    "C119_copy",
    "C119_caller",
    "C119_kept_vertices",
    "C119_kept_faces",
    "C119_kept_properties",
    "C119_translate_x",
    "C119_stale",
    "C119_augmented"
   ],
   "note": ""
  },
  {
   "property": "C120",
   "status": "proved",
   "theorems": [
    "C120_labels",
    "C120_ids",
    "C120_unique",
    "C120_names",
    "C120_unique_refuted"
   ],
   "note": ""
  },
  {
   "property": "C121",
   "status": "proved",
   "theorems": [
    "C121_merge",
    "C121_within",
    "C121_duplicates",
    "C121_clusters",
    "C121_zero",
    "C121_grid",
    "C121_mesh",
    "C121_farther_refuted"
   ],
   "note": ""
  },
  {
   "property": "C122",
   "status": "proved",
   "theorems": [
    "C122_normal",
    "C122_mirror",
    "C122_mirror_twice",
    "C122_symmetrize",
    "C122_error",
    "C122_twice_refuted"
   ],
   "note": ""
  },
  {
   "property": "C123",
   "status": "proved",
   "theorems": [
    "C123_normal",
    "C123_distance",
    "C123_intersection",
    "C123_clipped_edge"
   ],
   "note": ""
  },
  {
   "property": "C124",
   "status": "proved",
   "theorems": [
    "C124_translate",
    "C124_there_and_back",
    "C124_grid",
    "C124_back_refuted",
    "C124_scale",
    "C124_scale_power"
   ],
   "note": ""
  },
  {
   "property": "C125",
   "status": "proved",
   "theorems": [
    "C125_area",
    "C125_normal",
    "C125_planar",
    "C125_total_area",
    "C125_volume",
    "C125_enclosed"
   ],
   "note": ""
  },
  {
   "property": "C126",
   "status": "proved",
   "theorems": [
    "C126_clip",
    "C126_raised",
    "C126_closed"
   ],
   "note": ""
  },
  {
   "property": "C127",
   "status": "proved",
   "theorems": [
    "C127_place",
    "C127_displacement"
   ],
   "note": ""
  },
  {
   "property": "C128",
   "status": "proved",
   "theorems": [
    "C128_scene",
    "C128_parity",
    "C128_first",
    "C128_errors",
    "C128_twice",
    "C128_window",
    "C128_screenshot",
    "C128_normals_on_refuted",
    "C128_normals_off_refuted",
    "C128_plane_twice_refuted"
   ],
   "note": ""
  },
  {
   "property": "C129",
   "status": "proved",
   "theorems": [
    "C129_planes",
    "C129_tight",
    "C129_colors_refuted"
   ],
   "note": ""
  },
  {
   "property": "C130",
   "status": "proved",
   "theorems": [
    "C130_saved",
    "C130_mesh",
    "C130_main_refuted",
    "C130_mesh_shown",
    "C130_hydrostatics_shown"
   ],
   "note": ""
  },
  {
   "property": "C131",
   "status": "proved",
   "theorems": [
    "C131_plain_inertia"
   ],
   "note": ""
  },
  {
   "property": "C132",
   "status": "proved",
   "theorems": [
    "C132_shell_inertia"
   ],
   "note": ""
  },
  {
   "property": "C133",
   "status": "proved",
   "theorems": [
    "C133_buoyancy",
    "C133_initial",
    "C133_rotation"
   ],
   "note": ""
  },
  {
   "property": "C134",
   "status": "proved",
   "theorems": [
    "C134_waterplane"
   ],
   "note": ""
  },
  {
   "property": "C135",
   "status": "proved",
   "theorems": [
    "C135_stability",
    "C135_center"
   ],
   "note": ""
  },
  {
   "property": "C136",
   "status": "proved",
   "theorems": [
    "C136_reduction_point",
    "C136_shift",
    "C136_symmetric",
    "C136_stays"
   ],
   "note": ""
  }
 ]
}