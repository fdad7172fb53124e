{
 "claims": [
  {
   "property": "C01",
   "status": "proved",
   "theorems": [
    "C01_product_is_composition",
    "C01_product_assoc",
    "C01_default_neutral"
   ],
   "note": ""
  },
  {
   "property": "C02",
   "status": "proved",
   "theorems": [
    "C02_invert_round_trip",
    "C02_invert_exact_iff",
    "C02_invert_refuted"
   ],
   "note": "Exact characterisation of when invert works; the plain claim \"invert undoes the transform\" is refuted by C02_invert_refuted."
  },
  {
   "property": "C03",
   "status": "proved",
   "theorems": [
    "C03_product_is_composition_iff",
    "C03_product_is_composition_z_aligned",
    "C03_product_is_composition_identity",
    "C03_product_refuted"
   ],
   "note": "Exact condition (iff) plus refuting witness for rotated orientations."
  },
  {
   "property": "C04",
   "status": "proved",
   "theorems": [
    "C04_data_product_iff",
    "C04_data_product_refuted",
    "C04_data_invert_round_trip",
    "C04_data_invert_refuted"
   ],
   "note": "Exact condition plus refuting witnesses."
  },
  {
   "property": "C05",
   "status": "proved",
   "theorems": [
    "C05_invert_exact_iff",
    "C05_invert_z_aligned",
    "C05_invert_refuted"
   ],
   "note": "Exact condition plus refuting witness."
  },
  {
   "property": "C06",
   "status": "proved",
   "theorems": [
    "C06_affine_matrix",
    "C06_gear_affine_matrix"
   ],
   "note": ""
  },
  {
   "property": "C07",
   "status": "proved",
   "theorems": [
    "C07_apply_transform_meaning",
    "C07_apply_gear_transform_meaning",
    "C07_transform_scales_distances",
    "C07_gear_transform_scales_distances",
    "C07_gear_transform_preserves_angles",
    "C07_axis_independent_of_angle",
    "C07_axes_are_images",
    "C07_gear_axes_are_images"
   ],
   "note": ""
  },
  {
   "property": "C08",
   "status": "proved",
   "theorems": [
    "C08_evaluation_fieldwise",
    "C08_evaluation_idempotent",
    "C08_call_is_pure",
    "C08_make_callables_round_trip",
    "C08_make_callables_nested_refuted"
   ],
   "note": "One clause (make_callables on nested data) is refuted; see the _refuted theorem."
  },
  {
   "property": "C09",
   "status": "proved",
   "theorems": [
    "C09_normalised",
    "C09_idempotent",
    "C09_negation",
    "C09_pitch_angle_full_turn",
    "C09_actual_teeth"
   ],
   "note": ""
  },
  {
   "property": "C10",
   "status": "proved",
   "theorems": [
    "C10_apex_fixed",
    "C10_slice_on_cone",
    "C10_sphere_radius",
    "C10_center_sphere",
    "C10_curve_slice",
    "C10_curve_slice_beyond",
    "C10_curve_cone",
    "C10_curve_cone_at_z",
    "C10_curve_apex_refuted"
   ],
   "note": "The curve based recipe rounds the half cone angle to 1e-6 (C10_curve_apex_refuted)."
  },
  {
   "property": "C11",
   "status": "proved",
   "theorems": [
    "C11_cylindrical_round_trip",
    "C11_cylindrical_round_trip_inv",
    "C11_cylindrical_radius"
   ],
   "note": ""
  },
  {
   "property": "C12",
   "status": "proved",
   "theorems": [
    "C12_spherical_round_trip",
    "C12_spherical_round_trip_inv",
    "C12_spherical_radius",
    "C12_spherical_polar_angle"
   ],
   "note": ""
  },
  {
   "property": "C13",
   "status": "proved",
   "theorems": [
    "C13_polar_round_trip",
    "C13_polar_round_trip_inv",
    "C13_polar_round_trip_inv_cyl",
    "C13_polar_height",
    "C13_polar_base_circle"
   ],
   "note": ""
  },
  {
   "property": "C14",
   "status": "proved",
   "theorems": [
    "C14_angle_cos_sin",
    "C14_angle_range",
    "C14_angle_symmetric",
    "C14_angle_scale_invariant",
    "C14_angle_rotation_invariant",
    "C14_angle_self",
    "C14_normalize",
    "C14_projection",
    "C14_angle_to_plane",
    "C14_rotate_vector_angle"
   ],
   "note": ""
  },
  {
   "property": "C15",
   "status": "proved",
   "theorems": [
    "C15_decasteljau_is_bernstein_weights",
    "C15_decasteljau_is_bernstein",
    "C15_cubic_written_out"
   ],
   "note": ""
  },
  {
   "property": "C16",
   "status": "proved",
   "theorems": [
    "C16_starts_at_first",
    "C16_ends_at_last",
    "C16_convex_hull",
    "C16_affine_invariance",
    "C16_reversal",
    "C16_bernstein_form"
   ],
   "note": ""
  },
  {
   "property": "C17",
   "status": "proved",
   "theorems": [
    "C17_starts_at_first",
    "C17_ends_at_last",
    "C17_convex_hull",
    "C17_weight_scale_invariance",
    "C17_equal_weights"
   ],
   "note": ""
  },
  {
   "property": "C18",
   "status": "proved",
   "theorems": [
    "C18_bezier_diff_is_nth_derivative",
    "C18_order_equal_to_point_count_fails",
    "C18_order_equal_to_point_count_is_zero",
    "C18_higher_orders_zero",
    "C18_nurbezier_diff_is_derivative"
   ],
   "note": ""
  },
  {
   "property": "C19",
   "status": "proved",
   "theorems": [
    "C19_point_sensitivity_bezier",
    "C19_point_sensitivity_nurbezier",
    "C19_weight_sensitivity"
   ],
   "note": ""
  },
  {
   "property": "C20",
   "status": "proved",
   "theorems": [
    "C20_arc_exact"
   ],
   "note": ""
  },
  {
   "property": "C21",
   "status": "proved",
   "theorems": [
    "C21_surface_orders_agree",
    "C21_surface_orders_agree_positive",
    "C21_surface_corner_00",
    "C21_surface_corner_11"
   ],
   "note": ""
  },
  {
   "property": "C22",
   "status": "proved",
   "theorems": [
    "C22_quadratic_interp_ends",
    "C22_quadratic_interp_middle",
    "C22_quadratic_interp_iff",
    "C22_quadratic_interp_refuted"
   ],
   "note": "Exact condition; the natural claim (passes through the middle point) is refuted."
  },
  {
   "property": "C23",
   "status": "proved",
   "theorems": [
    "C23_string",
    "C23_radius",
    "C23_start",
    "C23_angle_rotates",
    "C23_offset",
    "C23_mirror",
    "C23_string_is_normal"
   ],
   "note": ""
  },
  {
   "property": "C24",
   "status": "proved",
   "theorems": [
    "C24_sphere_distance",
    "C24_start",
    "C24_string",
    "C24_z_offset",
    "C24_z_offset_refuted",
    "C24_flat_is_plane",
    "C24_string_is_normal"
   ],
   "note": "The z offset clause is refuted by a witness."
  },
  {
   "property": "C25",
   "status": "proved",
   "theorems": [
    "C25_rolling",
    "C25_radius",
    "C25_band",
    "C25_returns",
    "C25_mirror",
    "C25_contact_is_normal"
   ],
   "note": ""
  },
  {
   "property": "C26",
   "status": "proved",
   "theorems": [
    "C26_sphere_distance",
    "C26_rolling",
    "C26_flat_case_raises",
    "C26_start",
    "C26_contact_is_normal"
   ],
   "note": ""
  },
  {
   "property": "C27",
   "status": "proved",
   "theorems": [
    "C27_sphere_distance",
    "C27_offsets_ignored",
    "C27_start",
    "C27_mirror"
   ],
   "note": ""
  },
  {
   "property": "C28",
   "status": "proved",
   "theorems": [
    "C28_ends",
    "C28_strictly_monotone",
    "C28_strictly_monotone_reversed",
    "C28_t2s_inverts_s2t",
    "C28_s2t_inverts_t2s",
    "C28_table_is_length_share",
    "C28_distinct_samples_strict",
    "C28_t2s_reversed_refuted"
   ],
   "note": "t2s of a reversed curve is refuted by a witness; the rest holds."
  },
  {
   "property": "C29",
   "status": "proved",
   "theorems": [
    "C29_set_start_on",
    "C29_set_end_on",
    "C29_set_start_and_end_on",
    "C29_cut",
    "C29_trim_stays_on_curve"
   ],
   "note": ""
  },
  {
   "property": "C30",
   "status": "proved",
   "theorems": [
    "C30_involution",
    "C30_swaps_ends",
    "C30_reverse_refreshed",
    "C30_reverse_refreshed_extrapolated",
    "C30_reverse_line_arc",
    "C30_reverse_unrefreshed_refuted",
    "C30_nurb_reverse_full_range",
    "C30_nurb_reverse_ends",
    "C30_nurb_reverse_refreshed",
    "C30_nurb_reverse_trimmed_refuted"
   ],
   "note": "For sampled curves a refresh is needed (unrefreshed case refuted); trimmed NURBS reversal is refuted."
  },
  {
   "property": "C31",
   "status": "proved",
   "theorems": [
    "C31_sum_ends",
    "C31_difference_ends",
    "C31_product_ends",
    "C31_values",
    "C31_quotient_ends",
    "C31_quotient_ends_unit_range",
    "C31_quotient_refuted"
   ],
   "note": "Quotients fail unless the parameter range is the unit interval (refuted witness)."
  },
  {
   "property": "C32",
   "status": "proved",
   "theorems": [
    "C32_evaluation",
    "C32_ends",
    "C32_length_is_distance",
    "C32_arc_length",
    "C32_trim_length"
   ],
   "note": ""
  },
  {
   "property": "C33",
   "status": "proved",
   "theorems": [
    "C33_on_circle",
    "C33_two_point_center",
    "C33_two_point_center_shape",
    "C33_two_point_curvature",
    "C33_two_point_curvature_degenerate",
    "C33_point_center_angle",
    "C33_radius_center_angle",
    "C33_radius_center_angle_axis",
    "C33_radius_center_angle_start_refuted",
    "C33_length",
    "C33_chord_bound",
    "C33_trimmed_length_refuted",
    "C33_negative_angle"
   ],
   "note": "Trimmed length and start direction of from_radius_center_angle are refuted clauses (_refuted theorems)."
  },
  {
   "property": "C34",
   "status": "proved",
   "theorems": [
    "C34_line",
    "C34_arc",
    "C34_transform_data",
    "C34_gear_transform",
    "C34_trimmed_line",
    "C34_trimmed_line_refuted",
    "C34_trimmed_arc_refuted",
    "C34_reflection_refuted"
   ],
   "note": "Loss of the trim and reflections are shown by _refuted witnesses."
  },
  {
   "property": "C35",
   "status": "proved",
   "theorems": [
    "C35_mirror_involution",
    "C35_mirror_isometry",
    "C35_mirror_fixes",
    "C35_mirror_midpoint",
    "C35_rotate_composes",
    "C35_rotate_isometry",
    "C35_rotate_axis",
    "C35_rotate_zero",
    "C35_rotate_OUT",
    "C35_curve_ends",
    "C35_curve_values",
    "C35_line_pointwise",
    "C35_arc_pointwise",
    "C35_mirrored_arc",
    "C35_mirrored_line",
    "C35_rotated_arc"
   ],
   "note": "Pointwise on the curve for lines and arcs; for other curves ends exactly and values of the image (the table is resampled)."
  },
  {
   "property": "C36",
   "status": "proved",
   "theorems": [
    "C36_selects_active",
    "C36_selects_positive",
    "C36_no_active",
    "C36_zero_length"
   ],
   "note": ""
  },
  {
   "property": "C37",
   "status": "proved",
   "theorems": [
    "C37_travel",
    "C37_proportional",
    "C37_ends",
    "C37_nesting",
    "C37_continuous",
    "C37_lines_continuous",
    "C37_arcs_continuous",
    "C37_inactive_subchain_refuted"
   ],
   "note": "Active curves inside an inactive nested chain are skipped by evaluation but returned by get_curves (C37_inactive_subchain_refuted)."
  },
  {
   "property": "C38",
   "status": "proved",
   "theorems": [
    "C38_set_start",
    "C38_set_end",
    "C38_flat_set_start",
    "C38_flat_set_end",
    "C38_cut",
    "C38_preserve_slots",
    "C38_preserve_slots_end",
    "C38_start_and_end",
    "C38_both_ends_refuted",
    "C38_trim_to_nothing_refuted"
   ],
   "note": "set_start_and_end_on reads s1 on the trimmed chain (C38_both_ends_refuted); trimming everything away leaves an unusable chain (C38_trim_to_nothing_refuted)."
  },
  {
   "property": "C39",
   "status": "proved",
   "theorems": [
    "C39_append",
    "C39_extend",
    "C39_insert",
    "C39_pop",
    "C39_del_inactive",
    "C39_reverse",
    "C39_reverse_twice",
    "C39_reverse_points",
    "C39_reverse_ends",
    "C39_delitem_refuted",
    "C39_lerp_inactive"
   ],
   "note": "Deleting keeps the slot and breaks the chain (C39_delitem_refuted)."
  },
  {
   "property": "C40",
   "status": "proved",
   "theorems": [
    "C40_knots",
    "C40_points",
    "C40_split_read",
    "C40_split_members",
    "C40_read_split",
    "C40_read_split_unjoined_refuted",
    "C40_assign",
    "C40_enforce",
    "C40_enforce_idempotent",
    "C40_enforce_closed"
   ],
   "note": "Re-splitting needs shared joints; otherwise refuted (C40_read_split_unjoined_refuted)."
  },
  {
   "property": "C41",
   "status": "proved",
   "theorems": [
    "C41_perpendicular",
    "C41_other_angle_refuted",
    "C41_obtuse_refuted"
   ],
   "note": "Perpendicular axes proved; 60 and 120 degrees refuted. The function returns full cone angles."
  },
  {
   "property": "C42",
   "status": "proved",
   "theorems": [
    "C42_tooth_base_angle",
    "C42_flank_crosses_pitch_circle",
    "C42_solver_value_exists",
    "C42_working_pressure_angle",
    "C42_root_exists_unique",
    "C42_ring_root_exists_unique",
    "C42_standard_external",
    "C42_distance_bound",
    "C42_standard_ring",
    "C42_thin_teeth_refuted"
   ],
   "note": "scipy root as an exact-root hypothesis; existence and uniqueness of the roots are proved. Thin teeth: sign of the root lost (C42_thin_teeth_refuted)."
  },
  {
   "property": "C43",
   "status": "proved",
   "theorems": [
    "C43_half_backlash",
    "C43_same_arguments",
    "C43_ring_same_arguments"
   ],
   "note": "The property is that the function is not an inverse; exact values are proved."
  },
  {
   "property": "C44",
   "status": "proved",
   "theorems": [
    "C44_tooth_meets_gap",
    "C44_ring_mesh",
    "C44_whole_pitches",
    "C44_within_one_pitch"
   ],
   "note": ""
  },
  {
   "property": "C45",
   "status": "proved",
   "theorems": [
    "C45_external",
    "C45_pinion_into_ring",
    "C45_ring_over_pinion",
    "C45_never_interrupted",
    "C45_no_contact",
    "C45_tilted_target_refuted"
   ],
   "note": "External pair, pinion into ring, ring over pinion; every roll angle; gaps and common normals. Stated for the section at z = 0. Tilted targets refuted."
  },
  {
   "property": "C46",
   "status": "proved",
   "theorems": [
    "C46_adapt_shares_circles",
    "C46_adapt_twice",
    "C46_adapt_symmetric",
    "C46_external_contact",
    "C46_adapted_contact",
    "C46_pinion_into_ring",
    "C46_ring_over_pinion",
    "C46_flank_points"
   ],
   "note": "Planar gears at the section z = 0. The cone (bevel) version of the flank is not covered."
  },
  {
   "property": "C47",
   "status": "proved",
   "theorems": [
    "C47_adapt_forgets_placement",
    "C47_documented_order",
    "C47_documented_order_refuted"
   ],
   "note": "The claim describes a defect; proved as stated."
  },
  {
   "property": "C48",
   "status": "proved",
   "theorems": [
    "C48_apex_and_axes",
    "C48_pitch_circles_touch",
    "C48_tooth_meets_gap",
    "C48_ring_mesh",
    "C48_obtuse_refuted",
    "C48_parallel_target",
    "C48_one_flat",
    "C48_backlash_ignored"
   ],
   "note": "Apex, axes, pitch point, phase proved for all acute cones; obtuse cones with odd tooth number refuted (C48_obtuse_refuted)."
  },
  {
   "property": "C49",
   "status": "proved",
   "theorems": [
    "C49_sides",
    "C49_nominal_positive"
   ],
   "note": ""
  },
  {
   "property": "C50",
   "status": "proved",
   "theorems": [
    "C50_external",
    "C50_external_error",
    "C50_ring_first",
    "C50_ring_second",
    "C50_ring_error",
    "C50_tilted_refuted",
    "C50_contact"
   ],
   "note": "Addendum radii are parameters. Contact on the lines is proved for external upright spur pairs; a z offset of the centres refutes tangency."
  },
  {
   "property": "C51",
   "status": "proved",
   "theorems": [
    "C51_cylindrical",
    "C51_conic",
    "C51_conic_outside",
    "C51_on_sphere"
   ],
   "note": "circles evaluated point by point; radii of cylindrical gears, arc heights on the apex sphere for cones; the dedendum radius is given with its sign (a dedendum beyond the axis starts on the other side)"
  },
  {
   "property": "C52",
   "status": "proved",
   "theorems": [
    "C52_lengths",
    "C52_global",
    "C52_other_racks",
    "C52_mirror_plane"
   ],
   "note": "store with shared arrays: for every history of making and moving reference lines"
  },
  {
   "property": "C53",
   "status": "proved",
   "theorems": [
    "C53_profile",
    "C53_continuous",
    "C53_boundary",
    "C53_closed",
    "C53_teeth"
   ],
   "note": "For every flank curve and every answer of the solvers: if the trimmed flank has no pieces of zero length, is continuous, and its ends are not opposite to each other (where the arc through them is not defined), the profile is built, its end is its start turned by the pitch (up to 1e-10, the threshold below which the code leaves the root arc out), its pieces join, and the boundary is continuous and periodic."
  },
  {
   "property": "C54",
   "status": "proved",
   "theorems": [
    "C54_closed",
    "C54_outer_ring_broken",
    "C54_outside_arc"
   ],
   "note": "profile_closed, tooth_profile_closed and generate_profile_closed are loops; tooth_profile_closed_outer and _ring jump across the whole tooth gap (C54_outer_ring_broken). For bevel gears the connectors must be well-posed arcs about the apex (hypothesis connectable)."
  },
  {
   "property": "C55",
   "status": "proved",
   "theorems": [
    "C55_member",
    "C55_forms",
    "C55_trivial_transform",
    "C55_start_differs",
    "C55_float_teeth",
    "C55_int_teeth",
    "C55_forms_refuted"
   ],
   "note": "Exact relation: the chain form has the points of the function form mapped by the transform of the profile (C55_forms); with a non-trivial transform they can be disjoint (C55_forms_refuted). Float tooth numbers: TypeError of np.linspace, modelled in generate_boundary."
  },
  {
   "property": "C56",
   "status": "proved",
   "theorems": [
    "C56_thickness",
    "C56_only_crossing",
    "C56_tooth_and_gap"
   ],
   "note": "The thickness is (pi/2 + 2 x tan(alpha) - 2 backlash - crowning term) modules: the backlash coefficient is subtracted on either side. For cylindrical gears and an exact tooth solver."
  },
  {
   "property": "C57",
   "status": "proved",
   "theorems": [
    "C57_fit_pack_unpack",
    "C57_fit_unpack_pack",
    "C57_fit_ends",
    "C57_surface_pack_unpack",
    "C57_surface_unused",
    "C57_surface_unpack_pack",
    "C57_surface_ends",
    "C57_fit_curve_ends",
    "C57_convert_ends",
    "C57_profile_joined",
    "C57_trimmed_refuted",
    "C57_force_2D_ends"
   ],
   "note": "Allocators for all sizes, ends for every optimiser result, and joined profiles for all profiles whose active curves run head to tail (C57_profile_joined). Trimmed NURBS or transformed curves lose their trimming (C57_trimmed_refuted)."
  },
  {
   "property": "C58",
   "status": "proved",
   "theorems": [
    "C58_fit_gradient",
    "C58_fit_partial_derivatives",
    "C58_surface_half_gradient",
    "C58_fast_half_gradient",
    "C58_surface_gradient_iff",
    "C58_surface_gradient_refuted"
   ],
   "note": "The surface gradient is exactly half the true one (C58_surface_half_gradient), hence right only where it vanishes (C58_surface_gradient_iff)."
  },
  {
   "property": "C59",
   "status": "proved",
   "theorems": [
    "C59_rows",
    "C59_tiling",
    "C59_members",
    "C59_members_refuted",
    "C59_faces",
    "C59_face_count",
    "C59_tooth_faces",
    "C59_kept_iff"
   ],
   "note": "For every net with ascending knots; the last three patches are the outside ring exactly if its three curves are active (C59_kept_iff). Layers with different knots are stacked without notice (C59_members_refuted)."
  },
  {
   "property": "C60",
   "status": "proved",
   "theorems": [
    "C60_each_tooth_once",
    "C60_no_teeth",
    "C60_solid"
   ],
   "note": "old_solid is the doubling loop of GearBuilder_old over any carrier of solids; sets of points and lists of tooth angles are two instances. Tooth number 0: IndexError. The meaning of rotate and fuse in build123d is trusted."
  },
  {
   "property": "C61",
   "status": "proved",
   "theorems": [
    "C61_placement",
    "C61_mirrored_refuted"
   ],
   "note": "For orientations that are rotations; for mirrored orientations no Location can agree (C61_mirrored_refuted). The meaning of build123d Location and scale is trusted."
  },
  {
   "property": "C62",
   "status": "proved",
   "theorems": [
    "C62_boundary_turns_gear",
    "C62_accumulates",
    "C62_whole_teeth_harmless",
    "C62_fractional_teeth_refuted"
   ],
   "note": "All call counts; whole tooth numbers harmless, fractional ones refuted to be harmless."
  },
  {
   "property": "C63",
   "status": "proved",
   "theorems": [
    "C63_success",
    "C63_late_failure",
    "C63_cylindrical",
    "C63_surfaces_range",
    "C63_crash",
    "C63_retries",
    "C63_success_after_crash_refuted"
   ],
   "note": "Restored on success and on failures after the surfaces are made; each crash in between widens the range by the factor 1+2*ratio (C63_retries), and a later success restores only to the widened range."
  },
  {
   "property": "C64",
   "status": "proved",
   "theorems": [
    "C64_orientation_stays_rotation",
    "C64_scale_stays_module",
    "C64_reachable_cylindrical",
    "C64_reachable_conical",
    "C64_only_receiver_changes",
    "C64_untouched_gear",
    "C64_mesh_to_is_value_mesh",
    "C64_mesh_persists"
   ],
   "note": "Store model World.v: every finite history of 14 operations. The two operations that write into arrays are the subject of C76."
  },
  {
   "property": "C65",
   "status": "proved",
   "theorems": [
    "C65_reset_placement",
    "C65_restores_construction_iff"
   ],
   "note": "Exact characterisation (iff) over all histories without in-place array writes."
  },
  {
   "property": "C66",
   "status": "proved",
   "theorems": [
    "C66_cone_setter_without_effect",
    "C66_module_setter"
   ],
   "note": "That gearcore.cone is a copy is part of the store model."
  },
  {
   "property": "C67",
   "status": "proved",
   "theorems": [
    "C67_reported_point",
    "C67_correct_iff",
    "C67_unturned",
    "C67_displaced_refuted"
   ],
   "note": "Exact condition (iff) for the report to be the apex; displaced gears refuted."
  },
  {
   "property": "C68",
   "status": "proved",
   "theorems": [
    "C68_reported_height",
    "C68_correct_iff",
    "C68_at_origin",
    "C68_sideways_refuted",
    "C68_proportion",
    "C68_herringbone_refuted"
   ],
   "note": "Exact condition (iff); sideways displacement and herringbone lists refuted by witnesses."
  },
  {
   "property": "C69",
   "status": "proved",
   "theorems": [
    "C69_full_thickness",
    "C69_centred_iff",
    "C69_module_two_refuted"
   ],
   "note": "Exact condition (iff) plus witness for module 2."
  },
  {
   "property": "C70",
   "status": "proved",
   "theorems": [
    "C70_normal_dimensions",
    "C70_helix_angle",
    "C70_sections",
    "C70_ring_twist_refuted",
    "C70_herringbone_symmetric"
   ],
   "note": "Ring gears without refined sections are shown by C70_ring_twist_refuted."
  },
  {
   "property": "C71",
   "status": "proved",
   "theorems": [
    "C71_tilt",
    "C71_tooth_lines_agree",
    "C71_new_gears"
   ],
   "note": "External pairs; ring pairs are C77."
  },
  {
   "property": "C72",
   "status": "proved",
   "theorems": [
    "C72_total",
    "C72_reference_line",
    "C72_teeth",
    "C72_tooth_in_gap_iff",
    "C72_conjugate",
    "C72_herringbone",
    "C72_helical_pair",
    "C72_no_interference",
    "C72_interference"
   ],
   "note": "Fillets of the rack are not modelled; the solid is the point map of the construction."
  },
  {
   "property": "C73",
   "status": "proved",
   "theorems": [
    "C73_copy_follows_original",
    "C73_independence_refuted",
    "C73_recalculated_copy"
   ],
   "note": "Any history before and after the copy; recalculation makes the copy independent."
  },
  {
   "property": "C74",
   "status": "proved",
   "theorems": [
    "C74_negative_means_ring",
    "C74_involute_consistent",
    "C74_helical_ring",
    "C74_spur_ring",
    "C74_negative_ring_refuted",
    "C74_cycloid",
    "C74_cycloid_refuted"
   ],
   "note": "Involute, helical ring, spur ring and cycloid gears; the inconsistent ones by exact conditions and refutations."
  },
  {
   "property": "C75",
   "status": "proved",
   "theorems": [
    "C75_apex_distance",
    "C75_apex_height",
    "C75_opening_angle"
   ],
   "note": ""
  },
  {
   "property": "C76",
   "status": "proved",
   "theorems": [
    "C76_in_place_move",
    "C76_origin_drifts"
   ],
   "note": "Exact set of moved gears, read off the call history; assigning one gear's centre array object to another gear is not modelled."
  },
  {
   "property": "C77",
   "status": "proved",
   "theorems": [
    "C77_tangent_iff",
    "C77_parallel_iff",
    "C77_documented_use_refuted",
    "C77_ring_moved"
   ],
   "note": "Exact conditions (iff); the documented use is refuted."
  },
  {
   "property": "C78",
   "status": "proved",
   "theorems": [
    "C78_section_gap",
    "C78_crowned_overlap_refuted"
   ],
   "note": "External spur pairs, every height; solver values as exact-root hypothesis for the mesh equation."
  },
  {
   "property": "C79",
   "status": "proved",
   "theorems": [
    "C79_ring_rim",
    "C79_herringbone_lost_refuted"
   ],
   "note": "Exact conditions (iff)."
  },
  {
   "property": "C80",
   "status": "proved",
   "theorems": [
    "C80_train",
    "C80_train_refuted"
   ],
   "note": "Exact condition (iff) and refutation."
  },
  {
   "property": "C81",
   "status": "proved",
   "theorems": [
    "C81_backlash_arc",
    "C81_ring_backlash_refuted"
   ],
   "note": "The defect is proved as stated."
  },
  {
   "property": "C82",
   "status": "proved",
   "theorems": [
    "C82_untrimmed_arc",
    "C82_trimmed_arc",
    "C82_long_trimmed_arc",
    "C82_zero_arc_refuted",
    "C82_line",
    "C82_trimmed_line_refuted"
   ],
   "note": "Arcs of more than half a turn that are trimmed lose their points (C82_long_trimmed_arc); trimmed lines ignore trimming (C82_trimmed_line_refuted). make_circle as described in build123d is trusted."
  },
  {
   "property": "C83",
   "status": "proved",
   "theorems": [
    "C83_copies",
    "C83_caller_transform",
    "C83_full_turn",
    "C83_partial_range_refuted"
   ],
   "note": "Any transform and tooth number; the mutated transform is characterised exactly (C83_caller_transform)."
  },
  {
   "property": "C84",
   "status": "proved",
   "theorems": [
    "C84_exact_fit",
    "C84_varying_weights_refuted"
   ],
   "note": "Refuted for varying weights (C84_varying_weights_refuted)."
  },
  {
   "property": "C85",
   "status": "proved",
   "theorems": [
    "C85_line",
    "C85_arc",
    "C85_prolonged_refuted"
   ],
   "note": "Prolonged arcs are the exception (C85_prolonged_refuted)."
  },
  {
   "property": "C86",
   "status": "proved",
   "theorems": [
    "C86_follows_curve",
    "C86_slice_shape",
    "C86_cone_along_curve"
   ],
   "note": ""
  },
  {
   "property": "C87",
   "status": "proved",
   "theorems": [
    "C87_axis_distance",
    "C87_direction_not_normalised_refuted",
    "C87_tooth_meets_gap",
    "C87_ring_mesh",
    "C87_bevel_ignores_other_place_refuted",
    "C87_bevel_apex_iff",
    "C87_bevel_unit_module",
    "C87_bevel_module_refuted",
    "C87_new_gear",
    "C87_center_sphere"
   ],
   "note": "Directions are not normalised and bevel placement ignores modules and the other gear's place (the _refuted theorems)."
  },
  {
   "property": "C88",
   "status": "proved",
   "theorems": [
    "C88_tangent_arc",
    "C88_gap",
    "C88_numerical_tangent",
    "C88_tangent_start",
    "C88_tangent_end",
    "C88_fillet_chain",
    "C88_failed_search_refuted",
    "C88_at_index"
   ],
   "note": "scipy.optimize.root is an arbitrary oracle; the unchecked success flag is C88_failed_search_refuted."
  },
  {
   "property": "C89",
   "status": "proved",
   "theorems": [
    "C89_branch",
    "C89_root",
    "C89_tip",
    "C89_sharp_root",
    "C89_sharp_tip",
    "C89_failed_search_refuted"
   ],
   "note": "Solvers are arbitrary oracles; a failed last attempt is C89_failed_search_refuted."
  },
  {
   "property": "C90",
   "status": "proved",
   "theorems": [
    "C90_never_higher",
    "C90_reduction",
    "C90_nothing_found",
    "C90_off",
    "C90_others",
    "C90_circle_height",
    "C90_circle",
    "C90_gear_circles",
    "C90_above_dedendum_refuted"
   ],
   "note": "Tip below the dedendum circle: C90_above_dedendum_refuted."
  },
  {
   "property": "C91",
   "status": "proved",
   "theorems": [
    "C91_profile",
    "C91_fillets",
    "C91_lands",
    "C91_trimmed_tip",
    "C91_trimmed_root",
    "C91_both_fillets",
    "C91_gear"
   ],
   "note": "Solvers are arbitrary oracles; the flank left after trimming must satisfy flank_ok of C53."
  },
  {
   "property": "C92",
   "status": "proved",
   "theorems": [
    "C92_touches",
    "C92_tangent",
    "C92_one_side",
    "C92_every_pose"
   ],
   "note": "Needs the answer of the pitch circle search (flank passes the pitch circle), as in C42."
  },
  {
   "property": "C93",
   "status": "proved",
   "theorems": [
    "C93_path",
    "C93_start",
    "C93_corner",
    "C93_undercut_iff",
    "C93_untouched",
    "C93_unneeded_refuted",
    "C93_cone_path"
   ],
   "note": "Teeth that need no undercut are cut all the same: C93_unneeded_refuted. Bevel gears: C93_cone_path."
  },
  {
   "property": "C94",
   "status": "proved",
   "theorems": [
    "C94_trim",
    "C94_single_curve",
    "C94_search",
    "C94_undercut_tooth",
    "C94_default_limits_refuted",
    "C94_octoid_refuted",
    "C94_octoid_plain"
   ],
   "note": "Missing limits: C94_default_limits_refuted; bevel gears with undercut raise AttributeError: C94_octoid_refuted."
  },
  {
   "property": "C95",
   "status": "proved",
   "theorems": [
    "C95_octoid_start",
    "C95_octoid_sphere",
    "C95_octoid_sphere_refuted",
    "C95_involute_cone",
    "C95_cycloid_tooth",
    "C95_nearest",
    "C95_base_radius"
   ],
   "note": "Negative and obtuse cones: C95_octoid_sphere_refuted. The spherical involute needs the answer of the base search (radius equation); C95_base_radius shows that there is one, with the derivative in place of the code's difference quotient."
  },
  {
   "property": "C96",
   "status": "proved",
   "theorems": [
    "C96_touches",
    "C96_law",
    "C96_tangent",
    "C96_rack_height",
    "C96_rack_pitch_point",
    "C96_rack_depth_refuted"
   ],
   "note": "Depth of the crown rack: C96_rack_depth_refuted."
  },
  {
   "property": "C97",
   "status": "proved",
   "theorems": [
    "C97_plane",
    "C97_cone_found",
    "C97_cone_depth",
    "C97_cone_missed",
    "C97_cone_connector_refuted",
    "C97_past_axis_refuted",
    "C97_bevel_depth",
    "C97_user_dedendum_refuted"
   ],
   "note": "Connector of bevel flanks: C97_cone_connector_refuted, C97_past_axis_refuted."
  },
  {
   "property": "C98",
   "status": "proved",
   "theorems": [
    "C98_line",
    "C98_arc",
    "C98_rack_parameters_refuted"
   ],
   "note": "RackToothGenerator: C98_rack_parameters_refuted."
  },
  {
   "property": "C99",
   "status": "proved",
   "theorems": [
    "C99_circles",
    "C99_placement"
   ],
   "note": ""
  },
  {
   "property": "C100",
   "status": "proved",
   "theorems": [
    "C100_radii",
    "C100_spur",
    "C100_pointed",
    "C100_tip_refuted"
   ],
   "note": "Pointed teeth: C100_pointed (all gears), C100_tip_refuted (a concrete gear)."
  },
  {
   "property": "C101",
   "status": "proved",
   "theorems": [
    "C101_angles",
    "C101_right_iff"
   ],
   "note": "C101_right_iff says when the reported angle is right."
  },
  {
   "property": "C102",
   "status": "proved",
   "theorems": [
    "C102_center",
    "C102_face",
    "C102_face_position",
    "C102_agree"
   ],
   "note": ""
  },
  {
   "property": "C103",
   "status": "proved",
   "theorems": [
    "C103_set_center",
    "C103_own_center",
    "C103_bevel_refuted"
   ],
   "note": "Own centre of a bevel gear's circles: C103_bevel_refuted."
  },
  {
   "property": "C104",
   "status": "proved",
   "theorems": [
    "C104_circle",
    "C104_start"
   ],
   "note": ""
  },
  {
   "property": "C105",
   "status": "proved",
   "theorems": [
    "C105_flank",
    "C105_solvable",
    "C105_profile",
    "C105_gear"
   ],
   "note": ""
  },
  {
   "property": "C106",
   "status": "proved",
   "theorems": [
    "C106_simple",
    "C106_once_round",
    "C106_boundary_curve",
    "C106_gear"
   ],
   "note": ""
  },
  {
   "property": "C107",
   "status": "proved",
   "theorems": [
    "C107_external",
    "C107_some_pair",
    "C107_touch",
    "C107_mesh_to"
   ],
   "note": "External pairs. Flank points up to unrolling angle pi (radius 3.29 base radii); exact root of the mesh equation."
  },
  {
   "property": "C108",
   "status": "proved",
   "theorems": [
    "C108_second_derivative_refuted",
    "C108_cubic",
    "C108_cubic_error",
    "C108_line",
    "C108_parabola_refuted",
    "C108_quadratic",
    "C108_quadratic_parabola"
   ],
   "note": "Higher derivatives do not exist (refuted); parabolas are not reproduced (refuted)."
  },
  {
   "property": "C109",
   "status": "proved",
   "theorems": [
    "C109_center",
    "C109_curvature",
    "C109_curvature_ends",
    "C109_half_circle",
    "C109_other"
   ],
   "note": "Negative curvature does not end at the second point (part of C109_curvature_ends)."
  },
  {
   "property": "C110",
   "status": "proved",
   "theorems": [
    "C110_circle",
    "C110_own_centre",
    "C110_turns",
    "C110_inside_outside",
    "C110_near_refuted",
    "C110_similarity",
    "C110_mirror",
    "C110_reversed"
   ],
   "note": "Exact for circles; arbitrary curves only up to symmetries. The value near the curve is not a winding number (refuted)."
  },
  {
   "property": "C111",
   "status": "proved",
   "theorems": [
    "C111_point",
    "C111_outward",
    "C111_flank",
    "C111_profile",
    "C111_gear",
    "C111_outline",
    "C111_report",
    "C111_solvable"
   ],
   "note": "The crossings found by the solver must lie in the range that is not undercut; the search for the lower end must succeed. Gears with ip_undercut are not covered."
  },
  {
   "property": "C112",
   "status": "proved",
   "theorems": [
    "C112_heights",
    "C112_sphere",
    "C112_blank_shape",
    "C112_blank",
    "C112_deep_root",
    "C112_cut",
    "C112_ring"
   ],
   "note": "External bevel gears (shape and containment), all bevel gears (spheres), cylindrical ring gears (outside ring). The cut with the side surfaces is not modelled. A root deeper than two modules leaves the blank (C112_deep_root)."
  },
  {
   "property": "C113",
   "status": "proved",
   "theorems": [
    "C113_contact",
    "C113_apart",
    "C113_never_interrupted",
    "C113_play",
    "C113_profiles"
   ],
   "note": "Both gears external with cone half angles below 90 degrees. C113_apart has the explicit hypothesis that the flanks turn away from the rack plane (clears), shown for the example by estimates. With backlash the contact is on the side to which the play is taken up."
  },
  {
   "property": "C114",
   "status": "proved",
   "theorems": [
    "C114_outline",
    "C114_flank_kept",
    "C114_sides",
    "C114_linked",
    "C114_contact",
    "C114_placement"
   ],
   "note": "bd.fillet and sort_by are taken by their documented meaning (any tangent arc with its ends on the two edges, any ascending order). usable_rack excludes racks whose foot has no thickness or whose tip is wider than the pitch."
  },
  {
   "property": "C115",
   "status": "proved",
   "theorems": [
    "C115_seam",
    "C115_closed",
    "C115_edges",
    "C115_seam_refuted",
    "C115_solvable"
   ],
   "note": "Edges are compared as control polygons with weights; bd.Shell, bd.Solid and the fix-up of a solid are not modelled. Convergence of the fit is a premise (C115_seam_refuted shows it is needed, C115_solvable that it can be met for every target); for two layers nothing is fitted."
  },
  {
   "property": "C116",
   "status": "proved",
   "theorems": [
    "C116_closed",
    "C116_involute",
    "C116_uncrowned",
    "C116_spur",
    "C116_walls",
    "C116_lands",
    "C116_kinds",
    "C116_layers",
    "C116_layers_cycloid",
    "C116_layers_involute",
    "C116_layers_helical",
    "C116_layers_ring_refuted"
   ],
   "note": "Premises are that the searches for the crossings with the tip and root circle succeed (C105) and, for more than two rows, that the fit converged (C115). bd.Shell, bd.Solid are not modelled. The part of teeth with undercut or fillets is covered by C116_closed where their flank is a list of plain curves (toothed), which is proved here for plain involute teeth and in C121 for undercut ones. The bound on the rows fails for HelicalRingGear: C116_layers_ring_refuted."
  },
  {
   "property": "C117",
   "status": "proved",
   "theorems": [
    "C117_tube",
    "C117_default",
    "C117_lines"
   ],
   "note": "Premises: the searches for the crossings succeed (C111), the fit converged where more than two rows are used (C115), the outside circle differs from the root circle. The split of the blank by the faces and the choice among its results (gggears_build123d.py 110-127) are not modelled; that the blank lies between the two spheres is C112."
  },
  {
   "property": "C118",
   "status": "proved",
   "theorems": [
    "C118_restored",
    "C118_failed",
    "C118_retries",
    "C118_one_layer",
    "C118_failed_refuted"
   ],
   "note": "The claim without the exception clause is false: C118_failed_refuted, exact condition in C118_failed. Exceptions of the split itself come after z_vals is restored."
  },
  {
   "property": "C119",
   "status": "proved",
   "theorems": [
    "C119_choice",
    "C119_external",
    "C119_ring_split",
    "C119_ring_blank",
    "C119_ring"
   ],
   "note": "The split itself (OCC) is a premise: the two pieces lie in the blank, one contains all of it inside the root cone and outside the spheres, the other all of it outside the tip cone (cut_apart). Volume is a relation required to be invariant under mirroring and monotone."
  },
  {
   "property": "C120",
   "status": "proved",
   "theorems": [
    "C120_tip",
    "C120_constructor",
    "C120_tooth",
    "C120_profile",
    "C120_part",
    "C120_threshold",
    "C120_default_untouched",
    "C120_default",
    "C120_default_solvable"
   ],
   "note": "Premises about the searches: the flank's own (C105) and, for the tip, that an answer reported as found lies on the flank and in the symmetry plane (plane_sound); C120_default_solvable shows that such answers exist for every n from 40 on."
  },
  {
   "property": "C121",
   "status": "proved",
   "theorems": [
    "C121_tooth",
    "C121_flank",
    "C121_involute",
    "C121_part",
    "C121_solvable",
    "C121_solvable_cut",
    "C121_default",
    "C121_default_solvable"
   ],
   "note": "Premises about the searches: they find points of the curves that coincide (relief_found, tip_found, root_found), the crossing outside the base circle and past the nearest pose of the corner, and an answer reported as found in the symmetry plane lies in it. C121_default_solvable shows that such answers exist for all the default gears from 10 to 39 teeth: from 21 on the corner touches the involute, below that it cuts into it."
  },
  {
   "property": "C122",
   "status": "proved",
   "theorems": [
    "C122_default",
    "C122_solvable",
    "C122_fits"
   ],
   "note": "Premises: what helical_searches asks of the searches (as in C120 and C121), and fits_converged for the optimiser. C122_solvable and C122_fits show that both can be met; C122_solvable leaves out the helix angle, if any, where 1.2 cos(helix) equals n/2 times the squared sine of the transverse pressure angle, because the crossing is then on the base circle. bd.Shell and bd.Solid are not modelled."
  },
  {
   "property": "C123",
   "status": "proved",
   "theorems": [
    "C123_closed",
    "C123_uncrowned",
    "C123_teeth",
    "C123_part",
    "C123_default",
    "C123_solvable",
    "C123_fits"
   ],
   "note": "Premises: cyc_shape gives the places where the two cycloids pass the root circle and the tip circle; cyc_plain says that the searches report such places; cyc_fits that the surface fit has converged (straight teeth need no fit). C123_default has none of the shape premises; C123_solvable and C123_fits show that its premises about searches and fit can be met. The outer curve's end must not lie beyond half a turn of the rolling circle. bd.Shell and bd.Solid are not modelled."
  },
  {
   "property": "C124",
   "status": "proved",
   "theorems": [
    "C124_section_height",
    "C124_default_points",
    "C124_default_same",
    "C124_default_same_cycloid",
    "C124_default_height",
    "C124_float_teeth",
    "C124_chain_points",
    "C124_gear",
    "C124_spur",
    "C124_default_refuted"
   ],
   "note": "C124_default_refuted shows that the default form is wrong away from z = 0; C124_default_height and C124_gear say by how much. C124_chain_points speaks of c_fun, the function that the returned curve samples, on [0, 1]; its premises (the tooth outline does not cross itself and closes) are shown for plain spur gears in C124_spur."
  },
  {
   "property": "C125",
   "status": "proved",
   "theorems": [
    "C125_simple",
    "C125_gear",
    "C125_cycloid_gear",
    "C125_cycloid",
    "C125_relief",
    "C125_default"
   ],
   "note": "C125_gear and C125_cycloid_gear assume that the section has teeth (toothed, as in C116 and C123) and that the flank is outward; C125_relief, C125_default and C125_cycloid derive both from the shape of the gear and from answers of the searches that C121 and C123 show to exist. so_curve is about the curve in the plane of the profile; so_apart about the teeth in space. Gears whose flank is an involute down to the root circle are covered by C106."
  },
  {
   "property": "C126",
   "status": "proved",
   "theorems": [
    "C126_swap_keeps",
    "C126_swap_fresh",
    "C126_swap_pitch",
    "C126_swap_back",
    "C126_swap_later",
    "C126_copy",
    "C126_new",
    "C126_new_cone",
    "C126_new_own",
    "C126_plain_refuted",
    "C126_new_refuted"
   ],
   "note": "The full claim is false in three ways, each proved: C126_new_refuted with C126_new (exactly the gears whose recipe holds the generator change, and how), C126_plain_refuted (TypeError for the class GearToothGenerator itself), and the last part of C126_swap_keeps (gears on one recipe change together). The rest holds in every state that a program can reach (reach). Attributes of a generator other than pitch radius, intersect angle and cone angle are part of its kind and are not assigned to."
  },
  {
   "property": "C127",
   "status": "proved",
   "theorems": [
    "C127_error",
    "C127_points",
    "C127_points_refuted"
   ],
   "note": "C127_points_refuted is the exception with the switched-off inner chain; C127_points assumes there is none (open_list), that the active curves are up to date (fresh) and that the total length is positive (wf), as in C37."
  },
  {
   "property": "C128",
   "status": "proved",
   "theorems": [
    "C128_plane",
    "C128_plane_refuted",
    "C128_sphere_refuted",
    "C128_list_refuted"
   ],
   "note": "The claim is false; C128_plane says what comes back, C128_plane_refuted, C128_sphere_refuted and C128_list_refuted that it is never what is promised. NumPy's broadcasting of the shapes (3,) and (3, 1) is modelled entry by entry."
  },
  {
   "property": "C129",
   "status": "proved",
   "theorems": [
    "C129_members",
    "C129_points",
    "C129_constant",
    "C129_no_gap"
   ],
   "note": "C129_constant needs positive weights. A curve without active pieces has total length 0 and is left out (nan in Python)."
  },
  {
   "property": "C130",
   "status": "proved",
   "theorems": [
    "C130_meet",
    "C130_meet_min",
    "C130_line",
    "C130_line_refuted",
    "C130_line_sign",
    "C130_plane",
    "C130_plane_min"
   ],
   "note": "About the functions given to scipy; that scipy finds a zero or a minimum is not claimed. C130_line_refuted is the exception with the zero direction."
  },
  {
   "property": "C131",
   "status": "proved",
   "theorems": [
    "C131_unique",
    "C131_min",
    "C131_straight",
    "C131_arc",
    "C131_too_large_refuted",
    "C131_chain",
    "C131_fillet_start",
    "C131_fillet"
   ],
   "note": "Positive radius in C131_arc and for the chain. C131_chain, C131_fillet and C131_fillet_start are for places further than DELTA (relative to the length) from the corner, where the numerical derivative has the direction of one edge. C131_too_large_refuted is the case in which the arc does not fit and nothing is reported."
  }
 ]
}