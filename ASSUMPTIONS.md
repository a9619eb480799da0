# What `Print Assumptions` lists for each theorem

Generated by tools/assumptions.py from the built development. All axioms are those of the Coq standard library.

* **A0** (663 theorems): `ClassicalDedekindReals.sig_forall_dec`, `ClassicalDedekindReals.sig_not_dec`, `Classical_Prop.classic`, `FunctionalExtensionality.functional_extensionality_dep`
* **A1** (117 theorems): closed under the global context (no axioms)
* **A2** (4 theorems): `ClassicalDedekindReals.sig_forall_dec`, `ClassicalDedekindReals.sig_not_dec`, `FunctionalExtensionality.functional_extensionality_dep`
* **A3** (4 theorems): `ClassicalDedekindReals.sig_forall_dec`, `FunctionalExtensionality.functional_extensionality_dep`
* **A4** (2 theorems): `ClassicalDedekindReals.sig_forall_dec`

| property | theorem | file | axioms |
|---|---|---|---|
| C01 | C01_represent_as_3d_keeps_point | PropPos.v | A0 |
| C01 | C01_represent_as_3d_total | PropPos.v | A0 |
| C01 | C01_represent_as_3d_outcomes | PropPos.v | A0 |
| C02 | C02_represent_as_2d_keeps_point | PropPos.v | A0 |
| C02 | C02_cart1_radial | PropPos.v | A0 |
| C02 | C02_radial_cart1 | PropPos.v | A0 |
| C03 | C03_radial_unit_error | PropMore.v | A0 |
| C03 | C03_embedding | PropPos.v | A0 |
| C03 | C03_projection | PropPos.v | A0 |
| C03 | C03_embed_then_project | PropPos.v | A0 |
| C03 | C03_cylindrical_radial_refuted | PropPos.v | A0 |
| C03 | C03_parallax_projection_refuted | PropPos.v | A0 |
| C03 | C03_parallax_projection_unit_error | PropPos.v | A0 |
| C03 | C03_default_embedding_inconsistent | PropPos.v | A0 |
| C04 | C04_round_trip | PropPos.v | A0 |
| C04 | C04_round_trip_cartesian | PropPos.v | A0 |
| C05 | C05_constructor_iff_in_range | PropPos.v | A0 |
| C05 | C05_represent_as_in_range | PropPos.v | A0 |
| C05 | C05_from_in_range | PropPos.v | A0 |
| C06 | C06_azimuth_wrapped | PropPos.v | A0 |
| C06 | C06_wrap_meaning | PropPos.v | A2 |
| C06 | C06_wrap_identity_in_range | PropPos.v | A2 |
| C07 | C07_spherical_from | PropPos.v | A0 |
| C07 | C07_math_spherical_from | PropPos.v | A0 |
| C07 | C07_negative_modulus_refuted | PropPos.v | A0 |
| C08 | C08_lonlat_from | PropPos.v | A0 |
| C09 | C09_no_ambiguity | PropPos.v | A1 |
| C09 | C09_result_class | PropPos.v | A0 |
| C09 | C09_bounded_redispatch | PropPos.v | A0 |
| C09 | C09_supported_pairs | PropPos.v | A0 |
| C09 | C09_unsupported_pairs | PropPos.v | A0 |
| C09 | C09_two_sphere_diverges | PropPos.v | A0 |
| C10 | C10_warns_iff_dimension_reduced | PropPos.v | A0 |
| C11 | C11_norm_is_distance_to_origin | PropArith.v | A0 |
| C11 | C11_norm_representation_independent | PropArith.v | A0 |
| C11 | C11_product_sums_to_norm_squared | PropArith.v | A0 |
| C11 | C11_product_is_componentwise | PropArith.v | A0 |
| C11 | C11_norm_may_be_an_angle | PropArith.v | A0 |
| C12 | C12_add | PropArith.v | A0 |
| C12 | C12_sub | PropArith.v | A0 |
| C12 | C12_sub_inverts_add | PropArith.v | A0 |
| C12 | C12_add_commutes | PropArith.v | A0 |
| C12 | C12_difference_of_equals_is_nan | PropArith.v | A0 |
| C12 | C12_prolate_refuted | PropArith.v | A0 |
| C12 | C12_two_sphere_refuted | PropArith.v | A0 |
| C13 | C13_neg | PropArith.v | A0 |
| C13 | C13_scalar_multiple | PropArith.v | A0 |
| C13 | C13_scalar_multiple_radial | PropArith.v | A0 |
| C13 | C13_right_multiple | PropArith.v | A0 |
| C13 | C13_negative_radial_raises | PropArith.v | A0 |
| C13 | C13_parallax_multiple_refuted | PropArith.v | A0 |
| C14 | C14_cartesian_division | PropArith.v | A0 |
| C14 | C14_division_by_zero | PropArith.v | A0 |
| C14 | C14_curvilinear_division_refuted | PropArith.v | A0 |
| C14 | C14_curvilinear_components | PropArith.v | A0 |
| C14 | C14_prolate_division | PropArith.v | A0 |
| C15 | C15_reflexive | PropArith.v | A0 |
| C15 | C15_cartesian | PropArith.v | A0 |
| C15 | C15_curvilinear_3d | PropArith.v | A0 |
| C15 | C15_polar | PropArith.v | A0 |
| C15 | C15_not_symmetric_across_dimensions | PropArith.v | A0 |
| C15 | C15_prolate_not_comparable | PropArith.v | A0 |
| C16 | C16_prolate_to_cylindrical | PropPos.v | A0 |
| C17 | C17_cylindrical_to_prolate | PropPos.v | A0 |
| C17 | C17_cylindrical_prolate_round_trip | PropPos.v | A0 |
| C17 | C17_prolate_cylindrical_round_trip | PropPos.v | A0 |
| C17 | C17_focus_gives_nan | PropPos.v | A0 |
| C18 | C18_delta_required | PropPos.v | A0 |
| C18 | C18_without_delta_unchanged | PropPos.v | A0 |
| C18 | C18_any_to_prolate | PropPos.v | A0 |
| C18 | C18_prolate_new_delta | PropPos.v | A0 |
| C18 | C18_prolate_to_any | PropPos.v | A0 |
| C19 | C19_velocity_keeps_meaning_3d | PropVel.v | A0 |
| C19 | C19_velocity_at_prolate_position | PropVel.v | A0 |
| C19 | C19_velocity_to_prolate | PropVel.v | A0 |
| C19 | C19_velocity_keeps_meaning_2d | PropVel.v | A0 |
| C19 | C19_velocity_keeps_meaning_1d | PropVel.v | A0 |
| C19 | C19_finding_loncoslat_to_prolate_raises | PropVel.v | A0 |
| C19 | C19_finding_prolate_velocity_raises | PropVel.v | A0 |
| C19 | C19_finding_prolate_velocity_vmap | PropVel.v | A0 |
| C19 | C19_finding_prolate_self_ignores_Delta | PropVel.v | A0 |
| C19 | C19_finding_loncoslat_self_ambiguous | PropVel.v | A0 |
| C20 | C20_round_trip_3d | PropVel.v | A0 |
| C20 | C20_to_prolate_injective | PropVel.v | A0 |
| C20 | C20_round_trip_2d | PropVel.v | A0 |
| C20 | C20_speed_3d | PropVel.v | A0 |
| C20 | C20_finding_planar_speed_raises | PropVel.v | A0 |
| C20 | C20_finding_planar_speed_type_error | PropVel.v | A0 |
| C20 | C20_speed_1d | PropVel.v | A0 |
| C20 | C20_finding_prolate_speed_raises | PropVel.v | A0 |
| C20 | C20_speed_invariant | PropVel.v | A0 |
| C21 | C21_lonlat_to_loncoslat | PropVel.v | A0 |
| C21 | C21_loncoslat_to_lonlat | PropVel.v | A0 |
| C22 | C22_acceleration_is_jacobian_only | PropVel.v | A0 |
| C22 | C22_correct_iff_no_curvature | PropVel.v | A0 |
| C22 | C22_true_acceleration | PropVel.v | A0 |
| C22 | C22_circular_motion_is_wrong | PropVel.v | A0 |
| C22 | C22_prolate_raises | PropVel.v | A0 |
| C22 | C22_acceleration_is_jacobian_only_2d | PropVel.v | A0 |
| C23 | C23_velocity_times_time | PropVel.v | A0 |
| C23 | C23_finding_loncoslat_and_prolate_raise | PropVel.v | A0 |
| C23 | C23_acceleration_times_time | PropVel.v | A0 |
| C23 | C23_acceleration_times_time_squared | PropVel.v | A0 |
| C23 | C23_times_twice | PropVel.v | A0 |
| C23 | C23_free_motion | PropVel.v | A0 |
| C24 | C24_position_classes | PropVel.v | A1 |
| C24 | C24_velocity_classes | PropVel.v | A1 |
| C24 | C24_acceleration_classes | PropVel.v | A1 |
| C24 | C24_loncoslat_exception | PropVel.v | A1 |
| C24 | C24_dimension | PropVel.v | A1 |
| C25 | C25_inverse_on_position_and_time | PropOp.v | A0 |
| C25 | C25_inverse_on_cartesian | PropOp.v | A0 |
| C25 | C25_inverse_on_four_vectors | PropOp.v | A0 |
| C25 | C25_inverse_on_positions | PropOp.v | A0 |
| C25 | C25_inverse_on_position_and_velocity | PropOp.v | A0 |
| C25 | C25_inverse_on_velocity | PropOp.v | A0 |
| C25 | C25_radial_translation_refuted | PropOp.v | A0 |
| C25 | C25_prolate_translation_refuted | PropOp.v | A0 |
| C25 | C25_cylindrical_boost_refuted | PropOp.v | A0 |
| C25 | C25_galilean_operator_needs_time | PropOp.v | A0 |
| C26 | C26_left_to_right | PropOp.v | A0 |
| C26 | C26_galilean_operator_is_its_pipe | PropOp.v | A0 |
| C26 | C26_or_is_sequence | PropOp.v | A0 |
| C26 | C26_or_associative | PropOp.v | A0 |
| C26 | C26_nested_pipes_flatten | PropOp.v | A0 |
| C26 | C26_or_flattens | PropOp.v | A1 |
| C26 | C26_right_nested_or_refuted | PropOp.v | A1 |
| C26 | C26_or_raises_iff | PropOp.v | A1 |
| C26 | C26_order_matters | PropOp.v | A0 |
| C27 | C27_inverse_reverses | PropOp.v | A0 |
| C27 | C27_galilean_operator_inverse | PropOp.v | A0 |
| C27 | C27_inverse_is_an_involution | PropOp.v | A0 |
| C27 | C27_involution_exact | PropOp.v | A0 |
| C27 | C27_is_inertial | PropOp.v | A1 |
| C27 | C27_all_inertial | PropOp.v | A1 |
| C27 | C27_getitem | PropOp.v | A1 |
| C27 | C27_getslice | PropOp.v | A1 |
| C27 | C27_getslice_general | PropOp.v | A1 |
| C28 | C28_same_effect_same_calls | PropOp2.v | A0 |
| C28 | C28_simplify_pipe | PropOp2.v | A0 |
| C28 | C28_simplify_pipe_returns | PropOp2.v | A0 |
| C28 | C28_two_rotations | PropOp2.v | A0 |
| C28 | C28_two_rotations_refuted | PropOp2.v | A0 |
| C28 | C28_spatial_translation | PropOp2.v | A0 |
| C28 | C28_translation | PropOp2.v | A0 |
| C28 | C28_boosts | PropOp2.v | A0 |
| C28 | C28_rotation | PropOp2.v | A0 |
| C28 | C28_dropped_translation_error | PropOp2.v | A0 |
| C28 | C28_small_translation_refuted | PropOp2.v | A0 |
| C28 | C28_two_dimensional_refuted | PropOp2.v | A0 |
| C28 | C28_galilean_operator | PropOp2.v | A0 |
| C29 | C29_calls_act_on_events | PropOp3.v | A0 |
| C29 | C29_spatial_translation | PropOp3.v | A0 |
| C29 | C29_translation | PropOp3.v | A0 |
| C29 | C29_boost | PropOp3.v | A0 |
| C29 | C29_rotation | PropOp3.v | A0 |
| C29 | C29_galilean_operator | PropOp3.v | A0 |
| C29 | C29_docstring_formula_refuted | PropOp3.v | A0 |
| C29 | C29_rigid_motion | PropOp3.v | A0 |
| C29 | C29_four_vector_agrees | PropOp3.v | A0 |
| C29 | C29_position_agrees | PropOp3.v | A0 |
| C29 | C29_arrays | PropOp3.v | A0 |
| C29 | C29_arrays_with_time | PropOp3.v | A0 |
| C29 | C29_velocity_boost | PropOp3.v | A0 |
| C29 | C29_finding_pipe_on_velocity_raises | PropOp3.v | A0 |
| C29 | C29_finding_galilean_on_velocity_raises | PropOp3.v | A0 |
| C29 | C29_composite_arrays_refuted | PropOp3.v | A0 |
| C29 | C29_position_and_velocity | PropOp3.v | A0 |
| C29 | C29_translation_keeps_velocity | PropOp3.v | A0 |
| C30 | C30_add | PropOp3.v | A0 |
| C30 | C30_sub | PropOp3.v | A0 |
| C30 | C30_neg | PropOp3.v | A0 |
| C30 | C30_norm2 | PropOp3.v | A0 |
| C30 | C30_norm2_representation_independent | PropOp3.v | A0 |
| C30 | C30_norm2_neg | PropOp3.v | A0 |
| C30 | C30_norm2_rotation | PropOp3.v | A0 |
| C30 | C30_norm | PropOp3.v | A0 |
| C30 | C30_to_array | PropOp3.v | A0 |
| C30 | C30_array_round_trip | PropOp3.v | A0 |
| C30 | C30_from_to_array | PropOp3.v | A0 |
| C30 | C30_custom_c_refuted | PropOp3.v | A0 |
| C30 | C30_rotation_resets_c_refuted | PropOp3.v | A0 |
| C30 | C30_from_three_refuted | PropOp3.v | A0 |
| C31 | C31_arrays | PropFrame.v | A0 |
| C31 | C31_arrays_with_velocity | PropFrame.v | A0 |
| C31 | C31_vectors | PropFrame.v | A0 |
| C31 | C31_inverse | PropFrame.v | A1 |
| C31 | C31_pipe_inverse | PropFrame.v | A0 |
| C31 | C31_pipe_order | PropFrame.v | A1 |
| C32 | C32_roll_zero_point | PropFrame.v | A2 |
| C32 | C32_centre_and_sun | PropFrame.v | A0 |
| C32 | C32_sun_distance | PropFrame.v | A2 |
| C32 | C32_isometry | PropFrame.v | A0 |
| C32 | C32_orientation | PropFrame.v | A0 |
| C32 | C32_roll | PropFrame.v | A0 |
| C32 | C32_velocity | PropFrame.v | A0 |
| C32 | C32_solar_velocity | PropFrame.v | A0 |
| C32 | C32_domain | PropFrame.v | A0 |
| C32 | C32_needs_length | PropFrame.v | A0 |
| C33 | C33_lookup | PropFrame.v | A1 |
| C33 | C33_no_frame | PropFrame.v | A1 |
| C33 | C33_icrs_identity | PropFrame.v | A1 |
| C33 | C33_through_icrs | PropFrame.v | A0 |
| C33 | C33_chain | PropFrame.v | A0 |
| C33 | C33_vectors | PropFrame.v | A0 |
| C33 | C33_single_position_refuted | PropFrame.v | A0 |
| C34 | C34_parallax_of_distance | PropDist.v | A0 |
| C34 | C34_distance_of_parallax | PropDist.v | A0 |
| C34 | C34_modulus_of_distance | PropDist.v | A0 |
| C34 | C34_distance_of_modulus | PropDist.v | A0 |
| C34 | C34_distance_parallax_distance | PropDist.v | A0 |
| C34 | C34_parallax_distance_parallax | PropDist.v | A0 |
| C34 | C34_distance_modulus_distance | PropDist.v | A0 |
| C34 | C34_modulus_distance_modulus | PropDist.v | A0 |
| C34 | C34_parallax_modulus_parallax | PropDist.v | A0 |
| C34 | C34_modulus_parallax_modulus | PropDist.v | A0 |
| C34 | C34_consistent | PropDist.v | A0 |
| C34 | C34_vectors_use_the_distance | PropDist.v | A0 |
| C34 | C34_monotone | PropDist.v | A0 |
| C34 | C34_small_angle | PropDist.v | A0 |
| C34 | C34_from | PropDist.v | A0 |
| C34 | C34_convert_refuted | PropDist.v | A0 |
| C35 | C35_check | PropDist.v | A0 |
| C35 | C35_conversions_pass | PropDist.v | A0 |
| C35 | C35_from_checks | PropDist.v | A0 |
| C35 | C35_negative_parallax | PropDist.v | A0 |
| C35 | C35_never_returns | PropDist.v | A0 |
| C35 | C35_modulus | PropDist.v | A0 |
| C36 | C36_same_physical_same_vector | PropUnits.v | A4 |
| C36 | C36_mapping | PropUnits.v | A0 |
| C36 | C36_mapping_missing | PropUnits.v | A0 |
| C36 | C36_mapping_wrong_unit | PropUnits.v | A0 |
| C36 | C36_distmod_other_unit | PropUnits.v | A0 |
| C36 | C36_mapping_compose | PropUnits.v | A0 |
| C36 | C36_mapping_idempotent | PropUnits.v | A0 |
| C36 | C36_unit_system | PropUnits.v | A0 |
| C36 | C36_unit_system_missing | PropUnits.v | A0 |
| C36 | C36_consistent | PropUnits.v | A0 |
| C36 | C36_consistent_fixpoint | PropUnits.v | A0 |
| C36 | C36_attributes_kept | PropUnits.v | A0 |
| C37 | C37_shape_is_broadcast | PropShape.v | A1 |
| C37 | C37_shape_raises | PropShape.v | A1 |
| C37 | C37_size_ndim_len | PropShape.v | A1 |
| C37 | C37_full_shaped | PropShape.v | A1 |
| C37 | C37_getitem | PropShape.v | A1 |
| C37 | C37_getitem_scalar_raises | PropShape.v | A1 |
| C37 | C37_getitem_empty_raises | PropShape.v | A1 |
| C37 | C37_slice | PropShape.v | A1 |
| C37 | C37_reshape | PropShape.v | A1 |
| C37 | C37_reshape_wrong_size | PropShape.v | A1 |
| C37 | C37_reshape_minus_one | PropShape.v | A1 |
| C37 | C37_reshape_twice | PropShape.v | A1 |
| C37 | C37_T_uniform | PropShape.v | A1 |
| C37 | C37_mT_uniform | PropShape.v | A1 |
| C37 | C37_mT_low_dimension_raises | PropShape.v | A1 |
| C37 | C37_flatten_uniform | PropShape.v | A1 |
| C37 | C37_ravel_is_flatten | PropShape.v | A1 |
| C37 | C37_iteration_never_stops_refuted | PropShape.v | A1 |
| C37 | C37_flatten_refuted | PropShape.v | A1 |
| C37 | C37_flatten_refuted | PropShape.v | A1 |
| C37 | C37_T_refuted | PropShape.v | A1 |
| C38 | C38_immutable | PropShape.v | A1 |
| C39 | C39_keys | PropSpace.v | A1 |
| C39 | C39_lookup | PropSpace.v | A1 |
| C39 | C39_lookup_missing | PropSpace.v | A1 |
| C39 | C39_construct_iff | PropSpace.v | A1 |
| C39 | C39_entrywise | PropSpace.v | A1 |
| C39 | C39_entrywise_total | PropSpace.v | A1 |
| C39 | C39_replace | PropSpace.v | A1 |
| C39 | C39_duplicates_accepted_refuted | PropSpace.v | A1 |
| C39 | C39_lookup_by_given_name_refuted | PropSpace.v | A1 |
| C39 | C39_index | PropSpace.v | A1 |
| C39 | C39_index_refuted | PropSpace.v | A1 |
| C39 | C39_index_scalar_refuted | PropSpace.v | A1 |
| C39 | C39_shape | PropSpace.v | A1 |
| C39 | C39_represent_as | PropSpace2.v | A0 |
| C39 | C39_velocity_needs_length | PropSpace2.v | A0 |
| C39 | C39_represent_as_keeps_meaning | PropSpace2.v | A0 |
| C39 | C39_round_trip | PropSpace2.v | A0 |
| C39 | C39_neg | PropSpace2.v | A0 |
| C39 | C39_neg_polar_refuted | PropSpace2.v | A0 |
| C40 | C40_round_trip | PropPoincare.v | A0 |
| C40 | C40_round_trip_no_rotation_refuted | PropPoincare.v | A0 |
| C40 | C40_sign_lost_refuted | PropPoincare.v | A0 |
| C40 | C40_from_to | PropPoincare.v | A0 |
| C40 | C40_axis_nan | PropPoincare.v | A0 |
| C40 | C40_negative_rho_raises | PropPoincare.v | A0 |
| C40 | C40_round_trip_any | PropPoincare.v | A0 |
| C41 | C41_from_array_components | PropArray.v | A1 |
| C41 | C41_to_array_components | PropArray.v | A1 |
| C41 | C41_array_round_trip | PropArray.v | A1 |
| C41 | C41_vector_round_trip | PropArray.v | A1 |
| C41 | C41_wrong_length_raises | PropArray.v | A1 |
| C41 | C41_long_array_accepted_refuted | PropArray.v | A1 |
| C41 | C41_short_array_accepted_refuted | PropArray.v | A1 |
| C41 | C41_batch_1d_lost_refuted | PropArray.v | A1 |
| C41 | C41_scalar | PropArray.v | A1 |
| C41 | C41_from_array_any_3d_class | PropArray.v | A1 |
| C42 | C42_add_cart3_any_units | PropUnits.v | A0 |
| C42 | C42_add_same_units | PropUnits.v | A0 |
| C42 | C42_sub_same_units | PropUnits.v | A0 |
| C42 | C42_eq_same_units | PropUnits.v | A0 |
| C42 | C42_different_units_raise | PropUnits.v | A0 |
| C42 | C42_common_units_add | PropUnits.v | A0 |
| C42 | C42_unit_invariance_refuted | PropUnits.v | A0 |
| C43 | C43_constructors | PropTrace.v | A0 |
| C43 | C43_represent_as | PropTrace.v | A0 |
| C43 | C43_arithmetic | PropTrace.v | A0 |
| C43 | C43_velocity_represent_as | PropTrace.v | A0 |
| C43 | C43_velocity_represent_as_array | PropTrace.v | A0 |
| C43 | C43_acceleration_represent_as | PropTrace.v | A0 |
| C43 | C43_times_time | PropTrace.v | A0 |
| C43 | C43_four_vectors | PropTrace.v | A0 |
| C43 | C43_operator_call | PropTrace.v | A0 |
| C43 | C43_operator_inverse | PropTrace.v | A0 |
| C43 | C43_frame_transform | PropTrace.v | A0 |
| C43 | C43_distances | PropTrace.v | A0 |
| C43 | C43_units | PropTrace.v | A0 |
| C43 | C43_space_represent_as | PropTrace.v | A0 |
| C43 | C43_space_neg | PropTrace.v | A0 |
| C43 | C43_poincare | PropTrace.v | A0 |
| C43 | C43_range_errors_lost_refuted | PropTrace.v | A0 |
| C45 | C45_from_array | PropND.v | A1 |
| C45 | C45_from_scalar | PropND.v | A1 |
| C45 | C45_unchecked_extra_axis_refuted | PropND.v | A1 |
| C45 | C45_T | PropND.v | A1 |
| C45 | C45_mT_matrix | PropND.v | A1 |
| C45 | C45_mT_low_raises | PropND.v | A1 |
| C45 | C45_mT_refuted | PropND.v | A1 |
| C45 | C45_reshape | PropND.v | A1 |
| C45 | C45_flatten | PropND.v | A1 |
| C45 | C45_reshape_wrong_size | PropND.v | A1 |
| C45 | C45_reshape_minus_one | PropND.v | A1 |
| C45 | C45_ravel_refuted | PropND.v | A1 |
| C45 | C45_getitem | PropND.v | A1 |
| C45 | C45_getitem_scalar_refuted | PropND.v | A1 |
| C45 | C45_add | PropND.v | A0 |
| C45 | C45_sub | PropND.v | A0 |
| C45 | C45_neg | PropND.v | A0 |
| C45 | C45_scale | PropND.v | A0 |
| C45 | C45_scale_by_array_raises | PropND.v | A0 |
| C45 | C45_add_mixed_dimension_refuted | PropND.v | A0 |
| C45 | C45_norm | PropND.v | A0 |
| C44 | C44_represent_as | PropScale.v | A0 |
| C44 | C44_add | PropScale.v | A0 |
| C44 | C44_sub | PropScale.v | A0 |
| C44 | C44_neg | PropScale.v | A0 |
| C44 | C44_scalar_multiple | PropScale.v | A0 |
| C44 | C44_norm | PropScale.v | A0 |
| C44 | C44_eq | PropScale.v | A0 |
| C46 | C46_to_astropy | PropAstropy.v | A0 |
| C46 | C46_from_astropy | PropAstropy.v | A0 |
| C46 | C46_round_trip | PropAstropy.v | A0 |
| C46 | C46_round_trip_exact | PropAstropy.v | A0 |
| C46 | C46_convert_only_counterparts | PropAstropy.v | A0 |
| C46 | C46_astropy_round_trip | PropAstropy.v | A0 |
| C46 | C46_from_other_class_refuted | PropAstropy.v | A0 |
| C46 | C46_negative_rho_refused | PropAstropy.v | A0 |
| C46 | C46_convert_ignores_target_refuted | PropAstropy.v | A0 |
| C46 | C46_no_counterpart_raises | PropAstropy.v | A0 |
| C46 | C46_velocity_round_trip | PropAstropy.v | A1 |
| C46 | C46_differential_round_trip | PropAstropy.v | A1 |
| C46 | C46_spherical_differential_names | PropAstropy.v | A1 |
| C46 | C46_velocity_from_other_class_refuted | PropAstropy.v | A1 |
| C46 | C46_astropy_ok_inhabited | PropAstropy.v | A0 |
| C47 | C47_positions | PropBatch.v | A0 |
| C47 | C47_velocities | PropBatch.v | A0 |
| C47 | C47_accelerations | PropBatch.v | A0 |
| C47 | C47_batch_keeps_meaning | PropBatch.v | A0 |
| C47 | C47_finding_paired_by_position | PropBatch.v | A0 |
| C47 | C47_finding_no_broadcasting | PropBatch.v | A0 |
| C47 | C47_loncoslat_broadcasts | PropBatch.v | A0 |
| C47 | C47_finding_loncoslat_inconsistent | PropBatch.v | A0 |
| C48 | C48_matmul | PropRot.v | A0 |
| C48 | C48_matmul_calls | PropRot.v | A0 |
| C48 | C48_matmul_associative | PropRot.v | A0 |
| C48 | C48_matmul_identity | PropRot.v | A0 |
| C48 | C48_matmul_inverse | PropRot.v | A0 |
| C48 | C48_inverse_cancels | PropRot.v | A0 |
| C48 | C48_finding_unchecked_matrix | PropRot.v | A0 |
| C48 | C48_neg_rotation | PropRot.v | A0 |
| C48 | C48_neg_is_inverse | PropRot.v | A0 |
| C48 | C48_finding_neg_rotation_not_inverse | PropRot.v | A0 |
| C48 | C48_from_euler | PropRot.v | A0 |
| C48 | C48_from_euler_rejects | PropRot.v | A0 |
| C48 | C48_from_euler_inverse | PropRot.v | A0 |
| C48 | C48_same_axis_adds | PropRot.v | A0 |
| C49 | C49_sqrt | PropFuncs.v | A0 |
| C49 | C49_sqrt_negative | PropFuncs.v | A0 |
| C49 | C49_cbrt | PropFuncs.v | A0 |
| C49 | C49_integer_pow | PropFuncs.v | A0 |
| C49 | C49_pow | PropFuncs.v | A0 |
| C49 | C49_pow_negative_base | PropFuncs.v | A0 |
| C49 | C49_trig | PropFuncs.v | A0 |
| C49 | C49_trig_periodic | PropFuncs.v | A0 |
| C49 | C49_tan | PropFuncs.v | A0 |
| C49 | C49_dot | PropFuncs.v | A0 |
| C49 | C49_dot_lengths | PropFuncs.v | A0 |
| C49 | C49_unit_independent | PropFuncs.v | A0 |
| C49 | C49_angle_constructor | PropFuncs.v | A3 |
| C49 | C49_convert | PropFuncs.v | A3 |
| C49 | C49_promote | PropFuncs.v | A3 |
| C50 | C50_vector_from_vector_is_itself | PropConstruct.v | A1 |
| C50 | C50_vector_from_vector_domain | PropConstruct.v | A1 |
| C50 | C50_requested_class_refuted | PropConstruct.v | A4 |
| C50 | C50_abstract_class_refuted | PropConstruct.v | A1 |
| C50 | C50_operator_from_operator | PropConstruct.v | A0 |
| C50 | C50_abstract_operator_refuted | PropConstruct.v | A0 |
| C50 | C50_spatial_translation | PropConstruct.v | A0 |
| C50 | C50_spatial_translation_of_vector | PropConstruct.v | A0 |
| C50 | C50_spatial_translation_refuses | PropConstruct.v | A0 |
| C50 | C50_translation | PropConstruct.v | A0 |
| C50 | C50_translation_refuses | PropConstruct.v | A0 |
| C50 | C50_rotation | PropConstruct.v | A0 |
| C50 | C50_rotation_refuses | PropConstruct.v | A0 |
| C50 | C50_boost | PropConstruct.v | A0 |
| C50 | C50_boost_length_refuted | PropConstruct.v | A0 |
| C50 | C50_boost_of_vector | PropConstruct.v | A0 |
| C50 | C50_velocity_boost | PropConstruct.v | A0 |
| C50 | C50_class_of_operator | PropConstruct.v | A0 |
| C50 | C50_pipe | PropConstruct.v | A0 |
| C50 | C50_pipe_refuses | PropConstruct.v | A0 |
| C50 | C50_galilean_operator | PropConstruct.v | A0 |
| C50 | C50_galilean_default | PropConstruct.v | A0 |
| C50 | C50_galilean_parts | PropConstruct.v | A0 |
| C50 | C50_frame_from_frame | PropConstruct.v | A1 |
| C50 | C50_astropy_galactocentric | PropConstruct.v | A0 |
| C50 | C50_astropy_with_data_raises | PropConstruct.v | A0 |
| C50 | C50_galcen_class_refuted | PropConstruct.v | A1 |
| C51 | C51_support | PropVelArith.v | A0 |
| C51 | C51_velocities_componentwise | PropVelArith.v | A0 |
| C51 | C51_accelerations_componentwise | PropVelArith.v | A0 |
| C51 | C51_subtraction_is_adding_the_opposite | PropVelArith.v | A0 |
| C51 | C51_boosts_use_the_same_sum | PropVelArith.v | A0 |
| C51 | C51_displacements_add | PropVelArith.v | A0 |
| C51 | C51_conversion_is_linear | PropVelArith.v | A0 |
| C51 | C51_conversion_at_a_quantity_is_linear | PropVelArith.v | A0 |
| C51 | C51_acceleration_conversion_is_linear | PropVelArith.v | A0 |
| C51 | C51_success_does_not_depend_on_the_numbers | PropVelArith.v | A0 |
| C51 | C51_conversion_commutes_with_negation | PropVelArith.v | A0 |
| C51 | C51_speed_scales_and_triangle | PropVelArith.v | A0 |
| C51 | C51_speed_of_components | PropVelArith.v | A0 |
| C51 | C51_acceleration_norm | PropVelArith.v | A0 |
| C51 | C51_equality | PropVelArith.v | A0 |
| C51 | C51_undefined_is_not_equal | PropVelArith.v | A0 |
| C51 | C51_finding_equality_is_not_physical | PropVelArith.v | A0 |
| C52 | C52_unit_vector | PropNormalize.v | A0 |
| C52 | C52_zero_is_undefined | PropNormalize.v | A0 |
| C52 | C52_direction_only | PropNormalize.v | A0 |
| C52 | C52_idempotent | PropNormalize.v | A0 |
| C52 | C52_rows_are_independent | PropNormalize.v | A0 |
| C52 | C52_quantity_is_dimensionless | PropNormalize.v | A0 |
| C52 | C52_position | PropNormalize.v | A0 |
| C52 | C52_negation | PropNormalize.v | A0 |
| C53 | C53_non_negative | PropNormalize.v | A0 |
| C53 | C53_positive | PropNormalize.v | A0 |
| C53 | C53_polar_range | PropNormalize.v | A0 |
| C53 | C53_comparisons | PropNormalize.v | A0 |
| C54 | C54_operators_act_elementwise | PropBatchOps.v | A0 |
| C54 | C54_batch_of_events | PropBatchOps.v | A0 |
| C54 | C54_batch_inverse | PropBatchOps.v | A0 |
| C54 | C54_boost_needs_broadcastable | PropBatchOps.v | A0 |
| C54 | C54_four_vector_shapes | PropBatchOps.v | A1 |
| C54 | C54_translation_of_one_velocity | PropBatchOps.v | A0 |
| C54 | C54_finding_translation_of_batch | PropBatchOps.v | A0 |
| C54 | C54_finding_translation_of_three | PropBatchOps.v | A0 |
| C55 | C55_keys | PropFields.v | A0 |
| C55 | C55_from_asdict | PropFields.v | A0 |
| C55 | C55_asdict_from | PropFields.v | A0 |
| C55 | C55_wrong_keys | PropFields.v | A0 |
| C55 | C55_replace | PropFields.v | A0 |
| C55 | C55_replace_nothing | PropFields.v | A0 |
| C55 | C55_replace_unknown | PropFields.v | A0 |
| C55 | C55_velocity_names | PropFields.v | A1 |
| C55 | C55_acceleration_names | PropFields.v | A1 |
| C55 | C55_velocity_rule | PropFields.v | A0 |
| C55 | C55_velocity_rule_loncoslat | PropFields.v | A0 |
| C55 | C55_acceleration_rule | PropFields.v | A0 |
| C55 | C55_velocity_times | PropFields.v | A0 |
| C55 | C55_acceleration_times | PropFields.v | A0 |
| C55 | C55_acceleration_times2 | PropFields.v | A0 |
| C56 | C56_position_path_independent | PropAlgebra.v | A0 |
| C56 | C56_position_path_independent_2d | PropAlgebra.v | A0 |
| C56 | C56_velocity_path_independent | PropAlgebra.v | A0 |
| C56 | C56_add_associative | PropAlgebra.v | A0 |
| C56 | C56_sub_is_add_neg | PropAlgebra.v | A0 |
| C56 | C56_double_negation | PropAlgebra.v | A0 |
| C56 | C56_distributive | PropAlgebra.v | A0 |
| C56 | C56_scalars_multiply | PropAlgebra.v | A0 |
| C56 | C56_one_and_minus_one | PropAlgebra.v | A0 |
| C56 | C56_norm_homogeneous | PropAlgebra.v | A0 |
| C56 | C56_norm_of_negative | PropAlgebra.v | A0 |
| C56 | C56_triangle_inequality | PropAlgebra.v | A0 |
| C56 | C56_distance_symmetric | PropAlgebra.v | A0 |
| C57 | C57_conversion_in_any_units | PropUQ.v | A0 |
| C57 | C57_units_do_not_matter | PropUQ.v | A0 |
| C57 | C57_same_point_in_any_units | PropUQ.v | A0 |
| C57 | C57_units_of_cylindrical | PropUQ.v | A0 |
| C58 | C58_velocity_in_any_units | PropUVel.v | A0 |
| C58 | C58_acceleration_in_any_units | PropUVel.v | A0 |
| C58 | C58_same_motion_in_any_units | PropUVel.v | A0 |
| C58 | C58_units_of_cylindrical_velocity | PropUVel.v | A0 |
| C59 | C59_cartesian_to_spherical | PropFloat.v | A0 |
| C59 | C59_cartesian_to_mathspherical | PropFloat.v | A0 |
| C59 | C59_cartesian_to_lonlat | PropFloat.v | A0 |
| C59 | C59_cartesian_to_cylindrical | PropFloat.v | A0 |
| C59 | C59_cylindrical_to_spherical | PropFloat.v | A0 |
| C59 | C59_cartesian2_to_polar | PropFloat.v | A0 |
| C59 | C59_radius_accuracy | PropFloat.v | A0 |
| C59 | C59_finding_short_vector_has_no_direction | PropFloat.v | A0 |
| C59 | C59_finding_long_vector_has_no_radius | PropFloat.v | A0 |
| C59 | C59_finding_small_polar_angle_lost | PropFloat.v | A0 |
| C60 | C60_wrap_in_range | PropFloat2.v | A0 |
| C60 | C60_wrap_keeps_angles_in_range | PropFloat2.v | A0 |
| C60 | C60_wrap_moves_by_whole_turns | PropFloat2.v | A0 |
| C60 | C60_finding_wrap_returns_full_turn | PropFloat2.v | A0 |
| C60 | C60_finding_stored_azimuth_full_turn | PropFloat2.v | A0 |
| C60 | C60_spherical_from_total | PropFloat2.v | A0 |
| C60 | C60_mathspherical_from_total | PropFloat2.v | A0 |
| C60 | C60_lonlat_from_in_range | PropFloat2.v | A0 |
| C61 | C61_cylindrical_to_cartesian_accuracy | PropFloat3.v | A0 |
| C61 | C61_polar_to_cartesian_accuracy | PropFloat3.v | A0 |
| C61 | C61_spherical_to_cartesian_accuracy | PropFloat3.v | A0 |
| C61 | C61_cartesian_cylindrical_round_trip | PropFloat3.v | A0 |
| C62 | C62_broadcast | PropPrims.v | A1 |
| C62 | C62_broadcast_is_array_broadcast | PropPrims.v | A1 |
| C62 | C62_broadcast_incompatible | PropPrims.v | A1 |
| C62 | C62_broadcast_last_axis_ignored_refuted | PropPrims.v | A1 |
| C62 | C62_reshape | PropPrims.v | A1 |
| C62 | C62_reshape_not_divisible | PropPrims.v | A1 |
| C62 | C62_reshape_partial_component | PropPrims.v | A1 |
| C62 | C62_reshape_result_shape_refuted | PropPrims.v | A1 |
| C62 | C62_astype | PropPrims.v | A1 |
| C62 | C62_astype_out_of_range | PropPrims.v | A1 |
| C62 | C62_space_each | PropPrims.v | A1 |
| C62 | C62_space_asdict | PropPrims.v | A1 |
| C62 | C62_space_shapes | PropPrims.v | A1 |
| C63 | C63_required | PropPrims.v | A1 |
| C63 | C63_default | PropPrims.v | A1 |
| C63 | C63_class_access | PropPrims.v | A1 |
| C63 | C63_fourvector_getattr | PropPrims.v | A1 |
| C63 | C63_mimebundle | PropPrims.v | A1 |
| C64 | C64_add_in_any_units | PropUnitArith.v | A0 |
| C64 | C64_add_right_or_ValueError | PropUnitArith.v | A0 |
| C64 | C64_sub_right_or_ValueError | PropUnitArith.v | A0 |
| C64 | C64_equality_right_or_ValueError | PropUnitArith.v | A0 |
| C64 | C64_sub_needs_equal_units | PropUnitArith.v | A0 |
| C64 | C64_add_in_low_dimensions_needs_equal_units | PropUnitArith.v | A0 |
| C64 | C64_equality_needs_equal_units | PropUnitArith.v | A0 |
| C64 | C64_neg_in_any_units | PropUnitArith.v | A0 |
| C64 | C64_multiple_in_any_units | PropUnitArith.v | A0 |
| C64 | C64_quotient_in_any_units | PropUnitArith.v | A0 |
| C64 | C64_product_in_any_units | PropUnitArith.v | A0 |
| C64 | C64_norm_in_any_units | PropUnitArith.v | A0 |
| C64 | C64_sum_is_the_vector_sum | PropUnitArith.v | A0 |
| C64 | C64_difference_is_the_vector_difference | PropUnitArith.v | A0 |
| C64 | C64_finding_difference_of_unlike_units_raises | PropUnitArith.v | A0 |
| C64 | C64_sum_in_low_dimensions | PropUnitArith.v | A0 |
| C64 | C64_finding_plane_sum_of_unlike_units_raises | PropUnitArith.v | A0 |
| C64 | C64_multiple_is_the_vector_multiple | PropUnitArith.v | A0 |
| C64 | C64_norm_is_the_length | PropUnitArith.v | A0 |
| C64 | C64_equal_iff_same_point | PropUnitArith.v | A0 |
| C64 | C64_sum_has_left_units | PropUnitArith.v | A0 |
| C64 | C64_sum_commutes_up_to_units | PropUnitArith.v | A0 |
| C64 | C64_norm_unit | PropUnitArith.v | A0 |
| C64 | C64_finding_degrees_do_not_compare | PropUnitArith.v | A0 |
| C65 | C65_sum_accuracy | PropFloat4.v | A0 |
| C65 | C65_difference_accuracy | PropFloat4.v | A0 |
| C65 | C65_sum_commutes_exactly | PropFloat4.v | A0 |
| C65 | C65_negation_exact | PropFloat4.v | A0 |
| C65 | C65_difference_is_sum_with_negative | PropFloat4.v | A0 |
| C65 | C65_difference_zero_iff_equal | PropFloat4.v | A0 |
| C65 | C65_finding_not_associative | PropFloat4.v | A0 |
| C65 | C65_finding_absorption | PropFloat4.v | A0 |
| C65 | C65_norm_is_the_spherical_radius | PropFloat4.v | A0 |
| C65 | C65_norm_accuracy | PropFloat4.v | A0 |
| C65 | C65_norm_of_negative | PropFloat4.v | A0 |
| C65 | C65_finding_norm_of_short_vector_is_zero | PropFloat4.v | A0 |
| C65 | C65_finding_zero_norm_not_zero | PropFloat4.v | A0 |
| C65 | C65_multiple_accuracy | PropFloat4.v | A0 |
| C65 | C65_power_of_two_exact | PropFloat4.v | A0 |
| C66 | C66_call_in_any_units | PropUnitOp.v | A0 |
| C66 | C66_call_right_or_ValueError | PropUnitOp.v | A0 |
| C66 | C66_inverse_in_any_units | PropUnitOp.v | A0 |
| C66 | C66_units_do_not_matter | PropUnitOp.v | A0 |
| C66 | C66_units_matter_only_to_ValueError | PropUnitOp.v | A0 |
| C66 | C66_calls_act_on_events | PropUnitOp.v | A0 |
| C66 | C66_inverse_round_trip | PropUnitOp.v | A0 |
| C66 | C66_translated_position_keeps_its_units | PropUnitOp.v | A0 |
| C66 | C66_boosted_position_keeps_its_units | PropUnitOp.v | A0 |
| C66 | C66_finding_plane_translation_needs_the_units_of_the_position | PropUnitOp.v | A0 |
| C66 | C66_finding_plane_boost_needs_the_units_of_the_position | PropUnitOp.v | A0 |
| C66 | C66_rotated_position_in_the_unit_of_x | PropUnitOp.v | A0 |
| C67 | C67_inverse_is_exact | PropFloat5.v | A0 |
| C67 | C67_inverse_of_inverse_is_the_operator | PropFloat5.v | A0 |
| C67 | C67_identity_and_composition | PropFloat5.v | A0 |
| C67 | C67_translation_round_trip | PropFloat5.v | A0 |
| C67 | C67_chain_of_translations | PropFloat5.v | A0 |
| C67 | C67_rotation_accuracy | PropFloat5.v | A0 |
| C67 | C67_rotation_keeps_lengths | PropFloat5.v | A0 |
| C67 | C67_axis_rotations_are_exact | PropFloat5.v | A0 |
| C67 | C67_axis_rotation_round_trip | PropFloat5.v | A0 |
| C67 | C67_boost_accuracy | PropFloat5.v | A0 |
| C67 | C67_boost_at_time_zero_is_exact | PropFloat5.v | A0 |
| C67 | C67_finding_round_trip_loses_small_positions | PropFloat5.v | A0 |
| C67 | C67_finding_merging_translations_changes_results | PropFloat5.v | A0 |
| C67 | C67_translation_of_events | PropFloat21.v | A0 |
| C68 | C68_calls_in_any_units | PropUnitFrame.v | A0 |
| C68 | C68_units_do_not_matter | PropUnitFrame.v | A0 |
| C68 | C68_inverse_round_trip | PropUnitFrame.v | A0 |
| C68 | C68_centre_sun_and_solar_velocity | PropUnitFrame.v | A0 |
| C68 | C68_results_in_the_units_of_the_argument | PropUnitFrame.v | A0 |
| C68 | C68_needs_a_length_distance | PropUnitFrame.v | A0 |
| C69 | C69_call_in_any_units | PropUnitOpVel.v | A0 |
| C69 | C69_call_right_or_ValueError | PropUnitOpVel.v | A0 |
| C69 | C69_units_do_not_matter | PropUnitOpVel.v | A0 |
| C69 | C69_position_and_velocity | PropUnitOpVel.v | A0 |
| C69 | C69_position_and_velocity_or_ValueError | PropUnitOpVel.v | A0 |
| C69 | C69_translation_keeps_velocity | PropUnitOpVel.v | A0 |
| C69 | C69_inverse_round_trip | PropUnitOpVel.v | A0 |
| C69 | C69_velocity_boost_needs_the_units_of_the_velocity | PropUnitOpVel.v | A0 |
| C69 | C69_translated_velocity_in_the_unit_of_its_first_component | PropUnitOpVel.v | A0 |
| C70 | C70_add_in_any_units | PropUnitFour.v | A0 |
| C70 | C70_sub_right_or_ValueError | PropUnitFour.v | A0 |
| C70 | C70_neg_in_any_units | PropUnitFour.v | A0 |
| C70 | C70_quotient_in_any_units | PropUnitFour.v | A0 |
| C70 | C70_interval_in_any_units | PropUnitFour.v | A0 |
| C70 | C70_sum_of_events | PropUnitFour.v | A0 |
| C70 | C70_difference_of_events | PropUnitFour.v | A0 |
| C70 | C70_interval_is_physical | PropUnitFour.v | A0 |
| C70 | C70_interval_units_do_not_matter | PropUnitFour.v | A0 |
| C70 | C70_norm_is_physical | PropUnitFour.v | A0 |
| C70 | C70_to_array | PropUnitFour.v | A0 |
| C70 | C70_from_array | PropUnitFour.v | A0 |
| C70 | C70_from_array_needs_lengths | PropUnitFour.v | A0 |
| C70 | C70_array_round_trip | PropUnitFour.v | A0 |
| C70 | C70_from_to_array | PropUnitFour.v | A0 |
| C70 | C70_interval_unit | PropUnitFour.v | A0 |
| C70 | C70_division | PropUnitFour.v | A0 |
| C70 | C70_finding_multiplication_raises | PropUnitFour.v | A1 |
| C70 | C70_finding_equality_raises | PropUnitFour.v | A1 |
| C70 | C70_finding_adding_a_position_raises | PropUnitFour.v | A0 |
| C71 | C71_velocity_sum | PropUnitVel.v | A0 |
| C71 | C71_velocity_difference | PropUnitVel.v | A0 |
| C71 | C71_acceleration_sum | PropUnitVel.v | A0 |
| C71 | C71_acceleration_difference | PropUnitVel.v | A0 |
| C71 | C71_multiples_and_negation | PropUnitVel.v | A0 |
| C71 | C71_velocity_times | PropUnitVel.v | A0 |
| C71 | C71_acceleration_times | PropUnitVel.v | A0 |
| C71 | C71_speed | PropUnitVel.v | A0 |
| C71 | C71_acceleration_norm | PropUnitVel.v | A0 |
| C71 | C71_speed_unit | PropUnitVel.v | A0 |
| C71 | C71_equality | PropUnitVel.v | A0 |
| C71 | C71_displacements_add | PropUnitVel.v | A0 |
| C71 | C71_finding_unlike_speeds | PropUnitVel.v | A0 |
| C72 | C72_sum_elementwise | PropBatchArith.v | A0 |
| C72 | C72_sum_succeeds | PropBatchArith.v | A0 |
| C72 | C72_sum_of_same_shape | PropBatchArith.v | A0 |
| C72 | C72_finding_no_rank_promotion | PropBatchArith.v | A0 |
| C72 | C72_finding_sum_without_shape | PropBatchArith.v | A0 |
| C72 | C72_negation_elementwise | PropBatchArith.v | A0 |
| C72 | C72_scale_elementwise | PropBatchArith.v | A0 |
| C72 | C72_scale_needs_a_number | PropBatchArith.v | A0 |
| C72 | C72_division_elementwise | PropBatchArith.v | A0 |
| C72 | C72_division_succeeds | PropBatchArith.v | A0 |
| C72 | C72_equality_elementwise | PropBatchArith.v | A0 |
| C72 | C72_equality_succeeds | PropBatchArith.v | A0 |
| C72 | C72_finding_self_comparison | PropBatchArith.v | A0 |
| C72 | C72_finding_prolate_batches | PropBatchArith.v | A0 |
| C73 | C73_constructor | PropBFour.v | A1 |
| C73 | C73_sum_elementwise | PropBFour.v | A0 |
| C73 | C73_sum_succeeds | PropBFour.v | A0 |
| C73 | C73_sum_of_same_shape | PropBFour.v | A0 |
| C73 | C73_negation | PropBFour.v | A0 |
| C73 | C73_interval | PropBFour.v | A0 |
| C73 | C73_to_array | PropBFour.v | A0 |
| C73 | C73_finding_to_array_needs_full_times | PropBFour.v | A0 |
| C73 | C73_from_array | PropBFour.v | A0 |
| C73 | C73_from_array_wrong_length | PropBFour.v | A0 |
| C73 | C73_array_round_trip | PropBFour.v | A0 |
| C73 | C73_finding_equality_of_arrays | PropBFour.v | A0 |
| C73 | C73_equality_of_events | PropBFour.v | A0 |
| C73 | C73_flatten_transpose | PropBFour.v | A1 |
| C73 | C73_matrix_transpose | PropBFour.v | A1 |
| C73 | C73_finding_matrix_transpose_needs_times | PropBFour.v | A1 |
| C73 | C73_finding_flatten_fails | PropBFour.v | A1 |
| C73 | C73_finding_transposed_times | PropBFour.v | A1 |
| C73 | C73_finding_no_indexing | PropBFour.v | A1 |
| C74 | C74_polar_to_cartesian_accuracy | PropFloat6.v | A0 |
| C74 | C74_cylindrical_to_cartesian_accuracy | PropFloat6.v | A0 |
| C74 | C74_spherical_to_cartesian_accuracy | PropFloat6.v | A0 |
| C74 | C74_cartesian_to_polar_accuracy | PropFloat7.v | A0 |
| C74 | C74_cartesian_to_cylindrical_accuracy | PropFloat7.v | A0 |
| C74 | C74_finding_no_velocity_near_the_axis | PropFloat7.v | A0 |
| C74 | C74_times_cosine_of_latitude | PropFloat7.v | A0 |
| C74 | C74_loncoslat_round_trip | PropFloat7.v | A0 |
| C74 | C74_accelerations_like_velocities | PropFloat7.v | A0 |
| C74 | C74_finding_no_polar_velocity_near_the_pole | PropFloat8.v | A0 |
| C75 | C75_Distance_constructor | PropUDist.v | A1 |
| C75 | C75_Parallax_constructor | PropUDist.v | A0 |
| C75 | C75_Parallax_dimension | PropUDist.v | A0 |
| C75 | C75_finding_modulus_only_in_mag | PropUDist.v | A3 |
| C75 | C75_conversions_element_by_element | PropUDist.v | A0 |
| C75 | C75_parallax_of_lengths | PropUDist.v | A0 |
| C75 | C75_length_of_parallaxes | PropUDist.v | A0 |
| C75 | C75_modulus_of_lengths | PropUDist.v | A0 |
| C75 | C75_length_of_moduli | PropUDist.v | A0 |
| C75 | C75_round_trips | PropUDist.v | A0 |
| C75 | C75_from | PropUDist.v | A0 |
| C75 | C75_from_other_dimension | PropUDist.v | A0 |
| C75 | C75_convert | PropUDist.v | A0 |
| C75 | C75_finding_convert_to_another_class_raises | PropUDist.v | A0 |
| C76 | C76_icrs_to_galactocentric | PropFloat9.v | A0 |
| C76 | C76_galactocentric_to_icrs | PropFloat9.v | A0 |
| C76 | C76_round_trip | PropFloat9.v | A0 |
| C76 | C76_finding_positions_near_the_sun_lose_x | PropFloat9.v | A0 |
| C77 | C77_interval_accuracy | PropFloat10.v | A0 |
| C77 | C77_causal_character | PropFloat10.v | A0 |
| C77 | C77_finding_spacelike_reported_as_null | PropFloat10.v | A0 |
| C77 | C77_sum_and_difference | PropFloat10.v | A0 |
| C77 | C77_negative | PropFloat10.v | A0 |
| C77 | C77_array_round_trip | PropFloat10.v | A0 |
| C78 | C78_velocity_sum | PropFloat11.v | A0 |
| C78 | C78_acceleration_sum | PropFloat11.v | A0 |
| C78 | C78_differences | PropFloat11.v | A0 |
| C78 | C78_no_other_rules | PropFloat11.v | A0 |
| C78 | C78_negation_exact | PropFloat11.v | A0 |
| C78 | C78_multiples | PropFloat11.v | A0 |
| C78 | C78_times | PropFloat11.v | A0 |
| C78 | C78_norm_is_the_norm_of_the_position | PropFloat11.v | A0 |
| C78 | C78_speed_accuracy | PropFloat11.v | A0 |
| C78 | C78_finding_speed_overflows | PropFloat11.v | A0 |
| C78 | C78_equality | PropFloat11.v | A0 |
| C78 | C78_acceleration_equality | PropFloat11.v | A0 |
| C79 | C79_parallax_of_length | PropFloat12.v | A0 |
| C79 | C79_length_of_parallax | PropFloat12.v | A0 |
| C79 | C79_length_parallax_length | PropFloat12.v | A0 |
| C79 | C79_parallax_length_parallax | PropFloat12.v | A0 |
| C79 | C79_modulus_of_length | PropFloat12.v | A0 |
| C79 | C79_length_of_modulus | PropFloat12.v | A0 |
| C79 | C79_length_modulus_length | PropFloat12.v | A0 |
| C79 | C79_negative_parallax | PropFloat12.v | A0 |
| C79 | C79_from | PropFloat12.v | A0 |
| C79 | C79_finding_short_distances_come_back_negative | PropFloat12.v | A0 |
| C79 | C79_modulus_of_parallax | PropFloat20.v | A0 |
| C79 | C79_parallax_of_modulus | PropFloat20.v | A0 |
| C80 | C80_translation_keeps_velocity | PropFloat13.v | A0 |
| C80 | C80_translation_of_cartesian | PropFloat13.v | A0 |
| C80 | C80_finding_overflow_spreads | PropFloat13.v | A0 |
| C80 | C80_velocity_boost | PropFloat13.v | A0 |
| C80 | C80_boost_round_trip | PropFloat13.v | A0 |
| C80 | C80_histories | PropFloat13.v | A0 |
| C80 | C80_translations_and_boosts_commute | PropFloat13.v | A0 |
| C80 | C80_other_calls_raise | PropFloat13.v | A0 |
| C81 | C81_cartesian_spherical_round_trip | PropFloat14.v | A0 |
| C81 | C81_finding_component_lost | PropFloat14.v | A0 |
| C82 | C82_spherical_mathspherical_exact | PropFloat15.v | A0 |
| C82 | C82_mathspherical_spherical_exact | PropFloat15.v | A0 |
| C82 | C82_spherical_lonlat_round_trip | PropFloat15.v | A0 |
| C82 | C82_lonlat_spherical_round_trip | PropFloat15.v | A0 |
| C82 | C82_finding_near_pole | PropFloat15.v | A0 |
| C82 | C82_lonlat_to_cartesian_accuracy | PropFloat15.v | A0 |
| C82 | C82_mathspherical_to_cartesian_accuracy | PropFloat15.v | A0 |
| C83 | C83_spherical_to_cylindrical_accuracy | PropFloat16.v | A0 |
| C83 | C83_cylindrical_spherical_round_trip | PropFloat16.v | A0 |
| C83 | C83_cartesian_polar_round_trip | PropFloat16.v | A0 |
| C84 | C84_cartesian_to_spherical_scale | PropFloat17.v | A0 |
| C84 | C84_cartesian_to_cylindrical_scale | PropFloat17.v | A0 |
| C84 | C84_cylindrical_to_spherical_scale | PropFloat17.v | A0 |
| C85 | C85_exact_in_every_order | PropFloat18.v | A0 |
| C85 | C85_unit_vector_accuracy | PropFloat18.v | A0 |
| C85 | C85_negation_exact | PropFloat18.v | A0 |
| C85 | C85_power_of_two | PropFloat18.v | A0 |
| C85 | C85_finding_short_rows_are_undefined | PropFloat18.v | A0 |
| C86 | C86_units_are_transparent | PropFloat19.v | A0 |
| C86 | C86_sums_in_one_unit | PropFloat19.v | A0 |
| C86 | C86_equality_in_one_unit | PropFloat19.v | A0 |
| C86 | C86_unit_conversion_accuracy | PropFloat19.v | A0 |
| C86 | C86_unit_conversion_round_trip | PropFloat19.v | A0 |
| C86 | C86_unit_conversion_keeps_order | PropFloat19.v | A0 |
| C86 | C86_same_unit_same_bits | PropFloat19.v | A0 |
| C86 | C86_power_of_two_units | PropFloat19.v | A0 |
| C86 | C86_spherical_in_any_units_accuracy | PropFloat19.v | A0 |
| C86 | C86_cylindrical_in_any_units_accuracy | PropFloat19.v | A0 |
| C86 | C86_polar_in_any_units_accuracy | PropFloat19.v | A0 |
| C86 | C86_sum_in_mixed_units_accuracy | PropFloat19.v | A0 |
| C86 | C86_operators_in_one_unit | PropFloat21.v | A0 |
| C86 | C86_inverses_in_one_unit | PropFloat21.v | A0 |
| C86 | C86_fourvectors_in_one_unit | PropFloat21.v | A0 |
| C86 | C86_norms_and_multiples_in_one_unit | PropFloat21.v | A0 |
| C86 | C86_interval_in_one_unit | PropFloat21.v | A0 |
