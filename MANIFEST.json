{
 "claims": [
  {
   "property": "C01",
   "status": "proved",
   "theorems": [
    "C01_represent_as_3d_keeps_point",
    "C01_represent_as_3d_total",
    "C01_represent_as_3d_outcomes"
   ],
   "note": ""
  },
  {
   "property": "C02",
   "status": "proved",
   "theorems": [
    "C02_represent_as_2d_keeps_point",
    "C02_cart1_radial",
    "C02_radial_cart1"
   ],
   "note": ""
  },
  {
   "property": "C03",
   "status": "proved",
   "theorems": [
    "C03_radial_unit_error",
    "C03_embedding",
    "C03_projection",
    "C03_embed_then_project",
    "C03_cylindrical_radial_refuted",
    "C03_parallax_projection_refuted",
    "C03_parallax_projection_unit_error",
    "C03_default_embedding_inconsistent"
   ],
   "note": "Embedding/projection proved for length-valued radial parts; findings: CylindricalPos->RadialPos gives rho, parallax radial parts project wrongly or raise, default embeddings are inconsistent."
  },
  {
   "property": "C04",
   "status": "proved",
   "theorems": [
    "C04_round_trip",
    "C04_round_trip_cartesian"
   ],
   "note": ""
  },
  {
   "property": "C05",
   "status": "proved",
   "theorems": [
    "C05_constructor_iff_in_range",
    "C05_represent_as_in_range",
    "C05_from_in_range"
   ],
   "note": ""
  },
  {
   "property": "C06",
   "status": "proved",
   "theorems": [
    "C06_azimuth_wrapped",
    "C06_wrap_meaning",
    "C06_wrap_identity_in_range"
   ],
   "note": ""
  },
  {
   "property": "C07",
   "status": "proved",
   "theorems": [
    "C07_spherical_from",
    "C07_math_spherical_from",
    "C07_negative_modulus_refuted"
   ],
   "note": "Proved for length-valued radii; finding: a negative distance modulus is treated as a negative distance."
  },
  {
   "property": "C08",
   "status": "proved",
   "theorems": [
    "C08_lonlat_from"
   ],
   "note": ""
  },
  {
   "property": "C09",
   "status": "proved",
   "theorems": [
    "C09_no_ambiguity",
    "C09_result_class",
    "C09_bounded_redispatch",
    "C09_supported_pairs",
    "C09_unsupported_pairs",
    "C09_two_sphere_diverges"
   ],
   "note": "Finding: TwoSpherePos conversions recurse for ever (property states this exception)."
  },
  {
   "property": "C10",
   "status": "proved",
   "theorems": [
    "C10_warns_iff_dimension_reduced"
   ],
   "note": ""
  },
  {
   "property": "C11",
   "status": "proved",
   "theorems": [
    "C11_norm_is_distance_to_origin",
    "C11_norm_representation_independent",
    "C11_product_sums_to_norm_squared",
    "C11_product_is_componentwise",
    "C11_norm_may_be_an_angle"
   ],
   "note": ""
  },
  {
   "property": "C12",
   "status": "proved",
   "theorems": [
    "C12_add",
    "C12_sub",
    "C12_sub_inverts_add",
    "C12_add_commutes",
    "C12_difference_of_equals_is_nan",
    "C12_prolate_refuted",
    "C12_two_sphere_refuted"
   ],
   "note": ""
  },
  {
   "property": "C13",
   "status": "proved",
   "theorems": [
    "C13_neg",
    "C13_scalar_multiple",
    "C13_scalar_multiple_radial",
    "C13_right_multiple",
    "C13_negative_radial_raises",
    "C13_parallax_multiple_refuted"
   ],
   "note": ""
  },
  {
   "property": "C14",
   "status": "proved",
   "theorems": [
    "C14_cartesian_division",
    "C14_division_by_zero",
    "C14_curvilinear_division_refuted",
    "C14_curvilinear_components",
    "C14_prolate_division"
   ],
   "note": ""
  },
  {
   "property": "C15",
   "status": "proved",
   "theorems": [
    "C15_reflexive",
    "C15_cartesian",
    "C15_curvilinear_3d",
    "C15_polar",
    "C15_not_symmetric_across_dimensions",
    "C15_prolate_not_comparable"
   ],
   "note": ""
  },
  {
   "property": "C16",
   "status": "proved",
   "theorems": [
    "C16_prolate_to_cylindrical"
   ],
   "note": ""
  },
  {
   "property": "C17",
   "status": "proved",
   "theorems": [
    "C17_cylindrical_to_prolate",
    "C17_cylindrical_prolate_round_trip",
    "C17_prolate_cylindrical_round_trip",
    "C17_focus_gives_nan"
   ],
   "note": ""
  },
  {
   "property": "C18",
   "status": "proved",
   "theorems": [
    "C18_delta_required",
    "C18_without_delta_unchanged",
    "C18_any_to_prolate",
    "C18_prolate_new_delta",
    "C18_prolate_to_any"
   ],
   "note": ""
  },
  {
   "property": "C19",
   "status": "proved",
   "theorems": [
    "C19_velocity_keeps_meaning_3d",
    "C19_velocity_at_prolate_position",
    "C19_velocity_to_prolate",
    "C19_velocity_keeps_meaning_2d",
    "C19_velocity_keeps_meaning_1d",
    "C19_finding_loncoslat_to_prolate_raises",
    "C19_finding_prolate_velocity_raises",
    "C19_finding_prolate_velocity_vmap",
    "C19_finding_prolate_self_ignores_Delta",
    "C19_finding_loncoslat_self_ambiguous"
   ],
   "note": "Velocity conversion is the Jacobian push-forward (curve-derivative meaning) for every ordered pair of the plain 3-D, 2-D and 1-D classes, and from every plain 3-D class to prolate. Converting a velocity FROM prolate coordinates always raises (vmap over the scalar Delta): proved as findings."
  },
  {
   "property": "C20",
   "status": "proved",
   "theorems": [
    "C20_round_trip_3d",
    "C20_to_prolate_injective",
    "C20_round_trip_2d",
    "C20_speed_3d",
    "C20_finding_planar_speed_raises",
    "C20_finding_planar_speed_type_error",
    "C20_speed_1d",
    "C20_finding_prolate_speed_raises",
    "C20_speed_invariant"
   ],
   "note": "Round trips for all plain classes; speeds in 1-D and 3-D; planar speeds always raise (finding); conversion to prolate is injective; the speed of a prolate velocity always raises (finding)."
  },
  {
   "property": "C21",
   "status": "proved",
   "theorems": [
    "C21_lonlat_to_loncoslat",
    "C21_loncoslat_to_lonlat"
   ],
   "note": ""
  },
  {
   "property": "C22",
   "status": "proved",
   "theorems": [
    "C22_acceleration_is_jacobian_only",
    "C22_correct_iff_no_curvature",
    "C22_true_acceleration",
    "C22_circular_motion_is_wrong",
    "C22_prolate_raises",
    "C22_acceleration_is_jacobian_only_2d"
   ],
   "note": "The code converts accelerations with the Jacobian only; theorems say exactly what the result means and that the curvature term is missing."
  },
  {
   "property": "C23",
   "status": "proved",
   "theorems": [
    "C23_velocity_times_time",
    "C23_finding_loncoslat_and_prolate_raise",
    "C23_acceleration_times_time",
    "C23_acceleration_times_time_squared",
    "C23_times_twice",
    "C23_free_motion"
   ],
   "note": ""
  },
  {
   "property": "C24",
   "status": "proved",
   "theorems": [
    "C24_position_classes",
    "C24_velocity_classes",
    "C24_acceleration_classes",
    "C24_loncoslat_exception",
    "C24_dimension"
   ],
   "note": "LonCosLat is the stated exception (class chains collapse to LonLat)."
  },
  {
   "property": "C25",
   "status": "proved",
   "theorems": [
    "C25_inverse_on_position_and_time",
    "C25_inverse_on_cartesian",
    "C25_inverse_on_four_vectors",
    "C25_inverse_on_positions",
    "C25_inverse_on_position_and_velocity",
    "C25_inverse_on_velocity",
    "C25_radial_translation_refuted",
    "C25_prolate_translation_refuted",
    "C25_cylindrical_boost_refuted",
    "C25_galilean_operator_needs_time"
   ],
   "note": ""
  },
  {
   "property": "C26",
   "status": "proved",
   "theorems": [
    "C26_left_to_right",
    "C26_galilean_operator_is_its_pipe",
    "C26_or_is_sequence",
    "C26_or_associative",
    "C26_nested_pipes_flatten",
    "C26_or_flattens",
    "C26_right_nested_or_refuted",
    "C26_or_raises_iff",
    "C26_order_matters"
   ],
   "note": ""
  },
  {
   "property": "C27",
   "status": "proved",
   "theorems": [
    "C27_inverse_reverses",
    "C27_galilean_operator_inverse",
    "C27_inverse_is_an_involution",
    "C27_involution_exact",
    "C27_is_inertial",
    "C27_all_inertial",
    "C27_getitem",
    "C27_getslice",
    "C27_getslice_general"
   ],
   "note": ""
  },
  {
   "property": "C28",
   "status": "proved",
   "theorems": [
    "C28_same_effect_same_calls",
    "C28_simplify_pipe",
    "C28_simplify_pipe_returns",
    "C28_two_rotations",
    "C28_two_rotations_refuted",
    "C28_spatial_translation",
    "C28_translation",
    "C28_boosts",
    "C28_rotation",
    "C28_dropped_translation_error",
    "C28_small_translation_refuted",
    "C28_two_dimensional_refuted",
    "C28_galilean_operator"
   ],
   "note": ""
  },
  {
   "property": "C29",
   "status": "proved",
   "theorems": [
    "C29_calls_act_on_events",
    "C29_spatial_translation",
    "C29_translation",
    "C29_boost",
    "C29_rotation",
    "C29_galilean_operator",
    "C29_docstring_formula_refuted",
    "C29_rigid_motion",
    "C29_four_vector_agrees",
    "C29_position_agrees",
    "C29_arrays",
    "C29_arrays_with_time",
    "C29_velocity_boost",
    "C29_finding_pipe_on_velocity_raises",
    "C29_finding_galilean_on_velocity_raises",
    "C29_composite_arrays_refuted",
    "C29_position_and_velocity",
    "C29_translation_keeps_velocity"
   ],
   "note": ""
  },
  {
   "property": "C30",
   "status": "proved",
   "theorems": [
    "C30_add",
    "C30_sub",
    "C30_neg",
    "C30_norm2",
    "C30_norm2_representation_independent",
    "C30_norm2_neg",
    "C30_norm2_rotation",
    "C30_norm",
    "C30_to_array",
    "C30_array_round_trip",
    "C30_from_to_array",
    "C30_custom_c_refuted",
    "C30_rotation_resets_c_refuted",
    "C30_from_three_refuted"
   ],
   "note": ""
  },
  {
   "property": "C31",
   "status": "proved",
   "theorems": [
    "C31_arrays",
    "C31_arrays_with_velocity",
    "C31_vectors",
    "C31_inverse",
    "C31_pipe_inverse",
    "C31_pipe_order"
   ],
   "note": ""
  },
  {
   "property": "C32",
   "status": "proved",
   "theorems": [
    "C32_roll_zero_point",
    "C32_centre_and_sun",
    "C32_sun_distance",
    "C32_isometry",
    "C32_orientation",
    "C32_roll",
    "C32_velocity",
    "C32_solar_velocity",
    "C32_domain",
    "C32_needs_length"
   ],
   "note": ""
  },
  {
   "property": "C33",
   "status": "proved",
   "theorems": [
    "C33_lookup",
    "C33_no_frame",
    "C33_icrs_identity",
    "C33_through_icrs",
    "C33_chain",
    "C33_vectors",
    "C33_single_position_refuted"
   ],
   "note": ""
  },
  {
   "property": "C34",
   "status": "proved",
   "theorems": [
    "C34_parallax_of_distance",
    "C34_distance_of_parallax",
    "C34_modulus_of_distance",
    "C34_distance_of_modulus",
    "C34_distance_parallax_distance",
    "C34_parallax_distance_parallax",
    "C34_distance_modulus_distance",
    "C34_modulus_distance_modulus",
    "C34_parallax_modulus_parallax",
    "C34_modulus_parallax_modulus",
    "C34_consistent",
    "C34_vectors_use_the_distance",
    "C34_monotone",
    "C34_small_angle",
    "C34_from",
    "C34_convert_refuted"
   ],
   "note": ""
  },
  {
   "property": "C35",
   "status": "proved",
   "theorems": [
    "C35_check",
    "C35_conversions_pass",
    "C35_from_checks",
    "C35_negative_parallax",
    "C35_never_returns",
    "C35_modulus"
   ],
   "note": ""
  },
  {
   "property": "C36",
   "status": "proved",
   "theorems": [
    "C36_same_physical_same_vector",
    "C36_mapping",
    "C36_mapping_missing",
    "C36_mapping_wrong_unit",
    "C36_distmod_other_unit",
    "C36_mapping_compose",
    "C36_mapping_idempotent",
    "C36_unit_system",
    "C36_unit_system_missing",
    "C36_consistent",
    "C36_consistent_fixpoint",
    "C36_attributes_kept"
   ],
   "note": ""
  },
  {
   "property": "C37",
   "status": "proved",
   "theorems": [
    "C37_shape_is_broadcast",
    "C37_shape_raises",
    "C37_size_ndim_len",
    "C37_full_shaped",
    "C37_getitem",
    "C37_getitem_scalar_raises",
    "C37_getitem_empty_raises",
    "C37_slice",
    "C37_reshape",
    "C37_reshape_wrong_size",
    "C37_reshape_minus_one",
    "C37_reshape_twice",
    "C37_T_uniform",
    "C37_mT_uniform",
    "C37_mT_low_dimension_raises",
    "C37_flatten_uniform",
    "C37_ravel_is_flatten",
    "C37_iteration_never_stops_refuted",
    "C37_flatten_refuted",
    "C37_flatten_refuted",
    "C37_T_refuted"
   ],
   "note": ""
  },
  {
   "property": "C38",
   "status": "proved",
   "theorems": [
    "C38_immutable"
   ],
   "note": ""
  },
  {
   "property": "C39",
   "status": "proved",
   "theorems": [
    "C39_keys",
    "C39_lookup",
    "C39_lookup_missing",
    "C39_construct_iff",
    "C39_entrywise",
    "C39_entrywise_total",
    "C39_replace",
    "C39_duplicates_accepted_refuted",
    "C39_lookup_by_given_name_refuted",
    "C39_index",
    "C39_index_refuted",
    "C39_index_scalar_refuted",
    "C39_shape",
    "C39_represent_as",
    "C39_velocity_needs_length",
    "C39_represent_as_keeps_meaning",
    "C39_round_trip",
    "C39_neg",
    "C39_neg_polar_refuted"
   ],
   "note": ""
  },
  {
   "property": "C40",
   "status": "proved",
   "theorems": [
    "C40_round_trip",
    "C40_round_trip_no_rotation_refuted",
    "C40_sign_lost_refuted",
    "C40_from_to",
    "C40_axis_nan",
    "C40_negative_rho_raises",
    "C40_round_trip_any"
   ],
   "note": "Findings: the reverse conversion loses azimuth and sign (stated exactly)."
  },
  {
   "property": "C41",
   "status": "proved",
   "theorems": [
    "C41_from_array_components",
    "C41_to_array_components",
    "C41_array_round_trip",
    "C41_vector_round_trip",
    "C41_wrong_length_raises",
    "C41_long_array_accepted_refuted",
    "C41_short_array_accepted_refuted",
    "C41_batch_1d_lost_refuted",
    "C41_scalar",
    "C41_from_array_any_3d_class"
   ],
   "note": "Findings: lengths unchecked; 1-D from_ of a batch keeps the first element."
  },
  {
   "property": "C42",
   "status": "proved",
   "theorems": [
    "C42_add_cart3_any_units",
    "C42_add_same_units",
    "C42_sub_same_units",
    "C42_eq_same_units",
    "C42_different_units_raise",
    "C42_common_units_add",
    "C42_unit_invariance_refuted"
   ],
   "note": ""
  },
  {
   "property": "C43",
   "status": "proved",
   "theorems": [
    "C43_constructors",
    "C43_represent_as",
    "C43_arithmetic",
    "C43_velocity_represent_as",
    "C43_velocity_represent_as_array",
    "C43_acceleration_represent_as",
    "C43_times_time",
    "C43_four_vectors",
    "C43_operator_call",
    "C43_operator_inverse",
    "C43_frame_transform",
    "C43_distances",
    "C43_units",
    "C43_space_represent_as",
    "C43_space_neg",
    "C43_poincare",
    "C43_range_errors_lost_refuted"
   ],
   "note": "Relates the Eager and Traced modes of every model: traced results are equal whenever eager ones succeed; exactly the range checks are lost."
  },
  {
   "property": "C45",
   "status": "proved",
   "theorems": [
    "C45_from_array",
    "C45_from_scalar",
    "C45_unchecked_extra_axis_refuted",
    "C45_T",
    "C45_mT_matrix",
    "C45_mT_low_raises",
    "C45_mT_refuted",
    "C45_reshape",
    "C45_flatten",
    "C45_reshape_wrong_size",
    "C45_reshape_minus_one",
    "C45_ravel_refuted",
    "C45_getitem",
    "C45_getitem_scalar_refuted",
    "C45_add",
    "C45_sub",
    "C45_neg",
    "C45_scale",
    "C45_scale_by_array_raises",
    "C45_add_mixed_dimension_refuted",
    "C45_norm"
   ],
   "note": "Findings on mT, ravel and scalar indexing of N-dimensional vectors are theorems."
  },
  {
   "property": "C44",
   "status": "proved",
   "theorems": [
    "C44_represent_as",
    "C44_add",
    "C44_sub",
    "C44_neg",
    "C44_scalar_multiple",
    "C44_norm",
    "C44_eq"
   ],
   "note": "Positions only (exact reals); units proper are C57/C58."
  },
  {
   "property": "C46",
   "status": "proved",
   "theorems": [
    "C46_to_astropy",
    "C46_from_astropy",
    "C46_round_trip",
    "C46_round_trip_exact",
    "C46_convert_only_counterparts",
    "C46_astropy_round_trip",
    "C46_from_other_class_refuted",
    "C46_negative_rho_refused",
    "C46_convert_ignores_target_refuted",
    "C46_no_counterpart_raises",
    "C46_velocity_round_trip",
    "C46_differential_round_trip",
    "C46_spherical_differential_names",
    "C46_velocity_from_other_class_refuted",
    "C46_astropy_ok_inhabited"
   ],
   "note": "astropy's constructors are modelled from their documentation. Finding: the requested class is ignored."
  },
  {
   "property": "C47",
   "status": "proved",
   "theorems": [
    "C47_positions",
    "C47_velocities",
    "C47_accelerations",
    "C47_batch_keeps_meaning",
    "C47_finding_paired_by_position",
    "C47_finding_no_broadcasting",
    "C47_loncoslat_broadcasts",
    "C47_finding_loncoslat_inconsistent"
   ],
   "note": "Findings: batched velocities at broadcast positions are paired in C order or raise."
  },
  {
   "property": "C48",
   "status": "proved",
   "theorems": [
    "C48_matmul",
    "C48_matmul_calls",
    "C48_matmul_associative",
    "C48_matmul_identity",
    "C48_matmul_inverse",
    "C48_inverse_cancels",
    "C48_finding_unchecked_matrix",
    "C48_neg_rotation",
    "C48_neg_is_inverse",
    "C48_finding_neg_rotation_not_inverse",
    "C48_from_euler",
    "C48_from_euler_rejects",
    "C48_from_euler_inverse",
    "C48_same_axis_adds"
   ],
   "note": "Finding: unary minus of a rotation is not its inverse; rotation matrices are not checked for orthogonality."
  },
  {
   "property": "C49",
   "status": "proved",
   "theorems": [
    "C49_sqrt",
    "C49_sqrt_negative",
    "C49_cbrt",
    "C49_integer_pow",
    "C49_pow",
    "C49_pow_negative_base",
    "C49_trig",
    "C49_trig_periodic",
    "C49_tan",
    "C49_dot",
    "C49_dot_lengths",
    "C49_unit_independent",
    "C49_angle_constructor",
    "C49_convert",
    "C49_promote"
   ],
   "note": ""
  },
  {
   "property": "C50",
   "status": "proved",
   "theorems": [
    "C50_vector_from_vector_is_itself",
    "C50_vector_from_vector_domain",
    "C50_requested_class_refuted",
    "C50_abstract_class_refuted",
    "C50_operator_from_operator",
    "C50_abstract_operator_refuted",
    "C50_spatial_translation",
    "C50_spatial_translation_of_vector",
    "C50_spatial_translation_refuses",
    "C50_translation",
    "C50_translation_refuses",
    "C50_rotation",
    "C50_rotation_refuses",
    "C50_boost",
    "C50_boost_length_refuted",
    "C50_boost_of_vector",
    "C50_velocity_boost",
    "C50_class_of_operator",
    "C50_pipe",
    "C50_pipe_refuses",
    "C50_galilean_operator",
    "C50_galilean_default",
    "C50_galilean_parts",
    "C50_frame_from_frame",
    "C50_astropy_galactocentric",
    "C50_astropy_with_data_raises",
    "C50_galcen_class_refuted"
   ],
   "note": ""
  },
  {
   "property": "C51",
   "status": "proved",
   "theorems": [
    "C51_support",
    "C51_velocities_componentwise",
    "C51_accelerations_componentwise",
    "C51_subtraction_is_adding_the_opposite",
    "C51_boosts_use_the_same_sum",
    "C51_displacements_add",
    "C51_conversion_is_linear",
    "C51_conversion_at_a_quantity_is_linear",
    "C51_acceleration_conversion_is_linear",
    "C51_success_does_not_depend_on_the_numbers",
    "C51_conversion_commutes_with_negation",
    "C51_speed_scales_and_triangle",
    "C51_speed_of_components",
    "C51_acceleration_norm",
    "C51_equality",
    "C51_undefined_is_not_equal",
    "C51_finding_equality_is_not_physical"
   ],
   "note": "Finding: the support table of the primitives is proved exactly, including the operations that raise."
  },
  {
   "property": "C52",
   "status": "proved",
   "theorems": [
    "C52_unit_vector",
    "C52_zero_is_undefined",
    "C52_direction_only",
    "C52_idempotent",
    "C52_rows_are_independent",
    "C52_quantity_is_dimensionless",
    "C52_position",
    "C52_negation"
   ],
   "note": ""
  },
  {
   "property": "C53",
   "status": "proved",
   "theorems": [
    "C53_non_negative",
    "C53_positive",
    "C53_polar_range",
    "C53_comparisons"
   ],
   "note": "Eager mode; the traced mode is C43."
  },
  {
   "property": "C54",
   "status": "proved",
   "theorems": [
    "C54_operators_act_elementwise",
    "C54_batch_of_events",
    "C54_batch_inverse",
    "C54_boost_needs_broadcastable",
    "C54_four_vector_shapes",
    "C54_translation_of_one_velocity",
    "C54_finding_translation_of_batch",
    "C54_finding_translation_of_three"
   ],
   "note": ""
  },
  {
   "property": "C55",
   "status": "proved",
   "theorems": [
    "C55_keys",
    "C55_from_asdict",
    "C55_asdict_from",
    "C55_wrong_keys",
    "C55_replace",
    "C55_replace_nothing",
    "C55_replace_unknown",
    "C55_velocity_names",
    "C55_acceleration_names",
    "C55_velocity_rule",
    "C55_velocity_rule_loncoslat",
    "C55_acceleration_rule",
    "C55_velocity_times",
    "C55_acceleration_times",
    "C55_acceleration_times2"
   ],
   "note": ""
  },
  {
   "property": "C56",
   "status": "proved",
   "theorems": [
    "C56_position_path_independent",
    "C56_position_path_independent_2d",
    "C56_velocity_path_independent",
    "C56_add_associative",
    "C56_sub_is_add_neg",
    "C56_double_negation",
    "C56_distributive",
    "C56_scalars_multiply",
    "C56_one_and_minus_one",
    "C56_norm_homogeneous",
    "C56_norm_of_negative",
    "C56_triangle_inequality",
    "C56_distance_symmetric"
   ],
   "note": "Laws hold off the axes/poles where coordinates are unique; exceptions are stated in the theorems."
  },
  {
   "property": "C57",
   "status": "proved",
   "theorems": [
    "C57_conversion_in_any_units",
    "C57_units_do_not_matter",
    "C57_same_point_in_any_units",
    "C57_units_of_cylindrical"
   ],
   "note": "Positions; removes the SI abstraction of C01-C18 for every choice of units."
  },
  {
   "property": "C58",
   "status": "proved",
   "theorems": [
    "C58_velocity_in_any_units",
    "C58_acceleration_in_any_units",
    "C58_same_motion_in_any_units",
    "C58_units_of_cylindrical_velocity"
   ],
   "note": "Velocities and accelerations; removes the SI abstraction of C19-C22."
  },
  {
   "property": "C59",
   "status": "proved",
   "theorems": [
    "C59_cartesian_to_spherical",
    "C59_cartesian_to_mathspherical",
    "C59_cartesian_to_lonlat",
    "C59_cartesian_to_cylindrical",
    "C59_cylindrical_to_spherical",
    "C59_cartesian2_to_polar",
    "C59_radius_accuracy",
    "C59_finding_short_vector_has_no_direction",
    "C59_finding_long_vector_has_no_radius",
    "C59_finding_small_polar_angle_lost"
   ],
   "note": "IEEE formats through Flocq; the mathematical library is any one meeting a stated accuracy. Signed zeros and NaN/inf distinction not modelled."
  },
  {
   "property": "C60",
   "status": "proved",
   "theorems": [
    "C60_wrap_in_range",
    "C60_wrap_keeps_angles_in_range",
    "C60_wrap_moves_by_whole_turns",
    "C60_finding_wrap_returns_full_turn",
    "C60_finding_stored_azimuth_full_turn",
    "C60_spherical_from_total",
    "C60_mathspherical_from_total",
    "C60_lonlat_from_in_range"
   ],
   "note": "Same number model as C59. Finding: wrapping a tiny negative angle gives exactly one full turn."
  },
  {
   "property": "C61",
   "status": "proved",
   "theorems": [
    "C61_cylindrical_to_cartesian_accuracy",
    "C61_polar_to_cartesian_accuracy",
    "C61_spherical_to_cartesian_accuracy",
    "C61_cartesian_cylindrical_round_trip"
   ],
   "note": "Same number model as C59."
  },
  {
   "property": "C62",
   "status": "proved",
   "theorems": [
    "C62_broadcast",
    "C62_broadcast_is_array_broadcast",
    "C62_broadcast_incompatible",
    "C62_broadcast_last_axis_ignored_refuted",
    "C62_reshape",
    "C62_reshape_not_divisible",
    "C62_reshape_partial_component",
    "C62_reshape_result_shape_refuted",
    "C62_astype",
    "C62_astype_out_of_range",
    "C62_space_each",
    "C62_space_asdict",
    "C62_space_shapes"
   ],
   "note": ""
  },
  {
   "property": "C63",
   "status": "proved",
   "theorems": [
    "C63_required",
    "C63_default",
    "C63_class_access",
    "C63_fourvector_getattr",
    "C63_mimebundle"
   ],
   "note": ""
  },
  {
   "property": "C64",
   "status": "proved",
   "theorems": [
    "C64_add_in_any_units",
    "C64_add_right_or_ValueError",
    "C64_sub_right_or_ValueError",
    "C64_equality_right_or_ValueError",
    "C64_sub_needs_equal_units",
    "C64_add_in_low_dimensions_needs_equal_units",
    "C64_equality_needs_equal_units",
    "C64_neg_in_any_units",
    "C64_multiple_in_any_units",
    "C64_quotient_in_any_units",
    "C64_product_in_any_units",
    "C64_norm_in_any_units",
    "C64_sum_is_the_vector_sum",
    "C64_difference_is_the_vector_difference",
    "C64_finding_difference_of_unlike_units_raises",
    "C64_sum_in_low_dimensions",
    "C64_finding_plane_sum_of_unlike_units_raises",
    "C64_multiple_is_the_vector_multiple",
    "C64_norm_is_the_length",
    "C64_equal_iff_same_point",
    "C64_sum_has_left_units",
    "C64_sum_commutes_up_to_units",
    "C64_norm_unit",
    "C64_finding_degrees_do_not_compare"
   ],
   "note": "Exact reals with units; rounding is C65."
  },
  {
   "property": "C65",
   "status": "proved",
   "theorems": [
    "C65_sum_accuracy",
    "C65_difference_accuracy",
    "C65_sum_commutes_exactly",
    "C65_negation_exact",
    "C65_difference_is_sum_with_negative",
    "C65_difference_zero_iff_equal",
    "C65_finding_not_associative",
    "C65_finding_absorption",
    "C65_norm_is_the_spherical_radius",
    "C65_norm_accuracy",
    "C65_norm_of_negative",
    "C65_finding_norm_of_short_vector_is_zero",
    "C65_finding_zero_norm_not_zero",
    "C65_multiple_accuracy",
    "C65_power_of_two_exact"
   ],
   "note": "Cartesian classes; same number model as C59."
  },
  {
   "property": "C66",
   "status": "proved",
   "theorems": [
    "C66_call_in_any_units",
    "C66_call_right_or_ValueError",
    "C66_inverse_in_any_units",
    "C66_units_do_not_matter",
    "C66_units_matter_only_to_ValueError",
    "C66_calls_act_on_events",
    "C66_inverse_round_trip",
    "C66_translated_position_keeps_its_units",
    "C66_boosted_position_keeps_its_units",
    "C66_finding_plane_translation_needs_the_units_of_the_position",
    "C66_finding_plane_boost_needs_the_units_of_the_position",
    "C66_rotated_position_in_the_unit_of_x"
   ],
   "note": "Same operator code at two number instances, GOp.v proved equal to Operators.v at SI."
  },
  {
   "property": "C67",
   "status": "proved",
   "theorems": [
    "C67_translation_of_events",
    "C67_inverse_is_exact",
    "C67_inverse_of_inverse_is_the_operator",
    "C67_identity_and_composition",
    "C67_translation_round_trip",
    "C67_chain_of_translations",
    "C67_rotation_accuracy",
    "C67_rotation_keeps_lengths",
    "C67_axis_rotations_are_exact",
    "C67_axis_rotation_round_trip",
    "C67_boost_accuracy",
    "C67_boost_at_time_zero_is_exact",
    "C67_finding_round_trip_loses_small_positions",
    "C67_finding_merging_translations_changes_results"
   ],
   "note": "Cartesian vectors; same number model as C59."
  },
  {
   "property": "C68",
   "status": "proved",
   "theorems": [
    "C68_calls_in_any_units",
    "C68_units_do_not_matter",
    "C68_inverse_round_trip",
    "C68_centre_sun_and_solar_velocity",
    "C68_results_in_the_units_of_the_argument",
    "C68_needs_a_length_distance"
   ],
   "note": "Frame code at two number instances, GFrame.v proved equal to Frames.v at SI. Euler composition of scipy is a definition in the model."
  },
  {
   "property": "C69",
   "status": "proved",
   "theorems": [
    "C69_call_in_any_units",
    "C69_call_right_or_ValueError",
    "C69_units_do_not_matter",
    "C69_position_and_velocity",
    "C69_position_and_velocity_or_ValueError",
    "C69_translation_keeps_velocity",
    "C69_inverse_round_trip",
    "C69_velocity_boost_needs_the_units_of_the_velocity",
    "C69_translated_velocity_in_the_unit_of_its_first_component"
   ],
   "note": "Operators on (position, velocity) pairs with unit-carrying coordinates, related to their SI values by a parametricity argument over the whole call loop; unit of the result velocity stated exactly for Cartesian cases."
  },
  {
   "property": "C70",
   "status": "proved",
   "theorems": [
    "C70_add_in_any_units",
    "C70_sub_right_or_ValueError",
    "C70_neg_in_any_units",
    "C70_quotient_in_any_units",
    "C70_interval_in_any_units",
    "C70_sum_of_events",
    "C70_difference_of_events",
    "C70_interval_is_physical",
    "C70_interval_units_do_not_matter",
    "C70_norm_is_physical",
    "C70_to_array",
    "C70_from_array",
    "C70_from_array_needs_lengths",
    "C70_array_round_trip",
    "C70_from_to_array",
    "C70_interval_unit",
    "C70_division",
    "C70_finding_multiplication_raises",
    "C70_finding_equality_raises",
    "C70_finding_adding_a_position_raises"
   ],
   "note": "FourVector operations on unit-carrying numbers, related to the SI model; multiplication, equality and mixed addition are proved to raise (findings)."
  },
  {
   "property": "C71",
   "status": "proved",
   "theorems": [
    "C71_velocity_sum",
    "C71_velocity_difference",
    "C71_acceleration_sum",
    "C71_acceleration_difference",
    "C71_multiples_and_negation",
    "C71_velocity_times",
    "C71_acceleration_times",
    "C71_speed",
    "C71_acceleration_norm",
    "C71_speed_unit",
    "C71_equality",
    "C71_displacements_add",
    "C71_finding_unlike_speeds"
   ],
   "note": ""
  },
  {
   "property": "C72",
   "status": "proved",
   "theorems": [
    "C72_sum_elementwise",
    "C72_sum_succeeds",
    "C72_sum_of_same_shape",
    "C72_finding_no_rank_promotion",
    "C72_finding_sum_without_shape",
    "C72_negation_elementwise",
    "C72_scale_elementwise",
    "C72_scale_needs_a_number",
    "C72_division_elementwise",
    "C72_division_succeeds",
    "C72_equality_elementwise",
    "C72_equality_succeeds",
    "C72_finding_self_comparison",
    "C72_finding_prolate_batches"
   ],
   "note": ""
  },
  {
   "property": "C73",
   "status": "proved",
   "theorems": [
    "C73_constructor",
    "C73_sum_elementwise",
    "C73_sum_succeeds",
    "C73_sum_of_same_shape",
    "C73_negation",
    "C73_interval",
    "C73_to_array",
    "C73_finding_to_array_needs_full_times",
    "C73_from_array",
    "C73_from_array_wrong_length",
    "C73_array_round_trip",
    "C73_finding_equality_of_arrays",
    "C73_equality_of_events",
    "C73_flatten_transpose",
    "C73_matrix_transpose",
    "C73_finding_matrix_transpose_needs_times",
    "C73_finding_flatten_fails",
    "C73_finding_transposed_times",
    "C73_finding_no_indexing"
   ],
   "note": ""
  },
  {
   "property": "C74",
   "status": "proved",
   "theorems": [
    "C74_polar_to_cartesian_accuracy",
    "C74_cylindrical_to_cartesian_accuracy",
    "C74_spherical_to_cartesian_accuracy",
    "C74_cartesian_to_polar_accuracy",
    "C74_cartesian_to_cylindrical_accuracy",
    "C74_finding_no_velocity_near_the_axis",
    "C74_times_cosine_of_latitude",
    "C74_loncoslat_round_trip",
    "C74_accelerations_like_velocities",
    "C74_finding_no_polar_velocity_near_the_pole"
   ],
   "note": ""
  },
  {
   "property": "C75",
   "status": "proved",
   "theorems": [
    "C75_Distance_constructor",
    "C75_Parallax_constructor",
    "C75_Parallax_dimension",
    "C75_finding_modulus_only_in_mag",
    "C75_conversions_element_by_element",
    "C75_parallax_of_lengths",
    "C75_length_of_parallaxes",
    "C75_modulus_of_lengths",
    "C75_length_of_moduli",
    "C75_round_trips",
    "C75_from",
    "C75_from_other_dimension",
    "C75_convert",
    "C75_finding_convert_to_another_class_raises"
   ],
   "note": ""
  },
  {
   "property": "C76",
   "status": "proved",
   "theorems": [
    "C76_icrs_to_galactocentric",
    "C76_galactocentric_to_icrs",
    "C76_round_trip",
    "C76_finding_positions_near_the_sun_lose_x"
   ],
   "note": ""
  },
  {
   "property": "C77",
   "status": "proved",
   "theorems": [
    "C77_interval_accuracy",
    "C77_causal_character",
    "C77_finding_spacelike_reported_as_null",
    "C77_sum_and_difference",
    "C77_negative",
    "C77_array_round_trip"
   ],
   "note": "Hypotheses: events in range (squares neither overflow nor underflow). C77_case meets them. The complex square root of XLA is modelled as the rounded real square root on the right axis."
  },
  {
   "property": "C78",
   "status": "proved",
   "theorems": [
    "C78_velocity_sum",
    "C78_acceleration_sum",
    "C78_differences",
    "C78_no_other_rules",
    "C78_negation_exact",
    "C78_multiples",
    "C78_times",
    "C78_norm_is_the_norm_of_the_position",
    "C78_speed_accuracy",
    "C78_finding_speed_overflows",
    "C78_equality",
    "C78_acceleration_equality"
   ],
   "note": "C78_case meets the hypotheses of the speed bound. Norms of velocities in other classes go through the conversion to Cartesian velocities (C74)."
  },
  {
   "property": "C79",
   "status": "proved",
   "theorems": [
    "C79_parallax_of_length",
    "C79_length_of_parallax",
    "C79_length_parallax_length",
    "C79_parallax_length_parallax",
    "C79_modulus_of_length",
    "C79_length_of_modulus",
    "C79_length_modulus_length",
    "C79_negative_parallax",
    "C79_from",
    "C79_finding_short_distances_come_back_negative",
    "C79_modulus_of_parallax",
    "C79_parallax_of_modulus"
   ],
   "note": "One array element. The library is a parameter; C79 assumes its accuracy only where the result is a normal number, and the correctly rounded library is shown to qualify. tan near pi/2 has no bounded condition number, so the length round trip is stated from 1 AU on (1 AU is parallax pi/4); below, the finding shows that no such bound can hold."
  },
  {
   "property": "C80",
   "status": "proved",
   "theorems": [
    "C80_translation_keeps_velocity",
    "C80_translation_of_cartesian",
    "C80_finding_overflow_spreads",
    "C80_velocity_boost",
    "C80_boost_round_trip",
    "C80_histories",
    "C80_translations_and_boosts_commute",
    "C80_other_calls_raise"
   ],
   "note": ""
  },
  {
   "property": "C81",
   "status": "proved",
   "theorems": [
    "C81_cartesian_spherical_round_trip",
    "C81_finding_component_lost"
   ],
   "note": ""
  },
  {
   "property": "C82",
   "status": "proved",
   "theorems": [
    "C82_spherical_mathspherical_exact",
    "C82_mathspherical_spherical_exact",
    "C82_spherical_lonlat_round_trip",
    "C82_lonlat_spherical_round_trip",
    "C82_finding_near_pole",
    "C82_lonlat_to_cartesian_accuracy",
    "C82_mathspherical_to_cartesian_accuracy"
   ],
   "note": ""
  },
  {
   "property": "C83",
   "status": "proved",
   "theorems": [
    "C83_spherical_to_cylindrical_accuracy",
    "C83_cylindrical_spherical_round_trip",
    "C83_cartesian_polar_round_trip"
   ],
   "note": ""
  },
  {
   "property": "C84",
   "status": "proved",
   "theorems": [
    "C84_cartesian_to_spherical_scale",
    "C84_cartesian_to_cylindrical_scale",
    "C84_cylindrical_to_spherical_scale"
   ],
   "note": ""
  },
  {
   "property": "C85",
   "status": "proved",
   "theorems": [
    "C85_exact_in_every_order",
    "C85_unit_vector_accuracy",
    "C85_negation_exact",
    "C85_power_of_two",
    "C85_finding_short_rows_are_undefined"
   ],
   "note": ""
  },
  {
   "property": "C86",
   "status": "proved",
   "theorems": [
    "C86_units_are_transparent",
    "C86_sums_in_one_unit",
    "C86_equality_in_one_unit",
    "C86_unit_conversion_accuracy",
    "C86_unit_conversion_round_trip",
    "C86_unit_conversion_keeps_order",
    "C86_same_unit_same_bits",
    "C86_power_of_two_units",
    "C86_spherical_in_any_units_accuracy",
    "C86_cylindrical_in_any_units_accuracy",
    "C86_polar_in_any_units_accuracy",
    "C86_sum_in_mixed_units_accuracy",
    "C86_operators_in_one_unit",
    "C86_inverses_in_one_unit",
    "C86_fourvectors_in_one_unit",
    "C86_norms_and_multiples_in_one_unit",
    "C86_interval_in_one_unit"
   ],
   "note": ""
  }
 ]
}