# What `Print Assumptions` lists

Generated by `tools/assumptions.py` from the 418 theorems of MANIFEST.json.
All the axioms are those of Coq's standard library:

* A1 `ClassicalDedekindReals.sig_forall_dec`
* A2 `ClassicalDedekindReals.sig_not_dec`
* A3 `Classical_Prop.classic`
* A4 `Description.constructive_definite_description`
* A5 `FunctionalExtensionality.functional_extensionality_dep`
* A6 `IndefiniteDescription.constructive_indefinite_description`

| axioms | number of theorems | theorems |
|---|---|---|
| none (closed under the global context) | 91 | C01_farm_superposition C01_empty_farm C03_farm_holds_turbines_partial C03_refuted C04_layout_round_trip_partial C04_layout_wrong_shape C05_gridLayout_positions C07_default_spacing_refuted C07_not_full C07_explicit_spacing_partial C09_history_independence_partial C11_update_loading_atomic C12_constructor_Ct_refuted C13_loading_required C14_only_ind C74_six_characters_partial C74_years_refuted C74_fields C41_shape C44_pointwise_partial C81_last_loading_wins C81_stores_solution C81_default_is_mean C10_compute_u_query C69_Kzt_unskewed_raises C92_more_outputs_refuted C75_round_trip C75_other_files C75_last_save_wins C94_crash_refuted C94_crash_states_partial C94_first_save_crash_partial C110_nan_ignored C110_size_mismatch C113_colormap C115_value_semantics_partial C115_unshared_writes_partial C115_write_effect C115_layout_is_a_copy C115_layout_shares_rows C115_layout_fortran_copied C117_available C117_distinct_cases C117_exact_keys C117_exact_cases C117_binary64 C117_binary64_cases_partial C117_refuted C117_projected C118_lookup C118_getSim C118_spacing C118_getSimTop C118_getSimCTs C138_value_semantics_partial C138_nCyl_given C138_write_effect C138_arrays_kept C138_answers_unchanged C140_isolation C140_queries C140_queries_alone C140_updates_alone C140_loaded_new C140_loaded_kept C140_progress C140_terminates C141_torn_wind C142_query_interrupted C142_retry C142_superseded C143_full_refuted C143_load_torn C143_load_interrupted C143_load_refused C144_arrays_of_the_name C144_undisturbed_load_partial C144_load_before_saves C144_refuted C146_accepted C146_farm C146_refused C146_smaller_X C146_smaller_X_raises C146_smaller_X_default C150_table C150_independent C150_unsupported C150_unsupported_first C150_no_direction C150_missing_case |
| A1 A5 | 1 | C116_rotation_error |
| A1 A2 A5 | 5 | C72_no_net_impulse C106_close_to_momentum C108_default_applies C120_axis_profile C153_inverse_square |
| A1 A2 A3 A5 | 320 | C02_concatenation C02_reordering C04_aliasing_refuted C06_gridLayout_distinct C09_history_refuted C09_not_full C13_raises_iff C15_no_wake C16_components_superpose C16_all_off_is_zero C17_translation_invariance C18_yaw_equivariance_partial C18_beyond_pi_refuted C19_rotation_matrix C20_transform_inverse C21_orth_vect C22_rotor_disk C22_any_shaft C23_horizontal_partial C23_tilt_refuted C24_yaw_wind C25_yaw_error_partial C25_backwards_refuted C28_Ct_const_cutoff C29_stream_tube C30_high_thrust_correction C31_discrete_solver_momentum C32_finite_with_swirl_partial C32_finite_without_swirl_partial C32_no_swirl_refuted C33_convection_as_coded_partial C33_refuted C34_vorticity_conserved C35_cylinders_enclose C37_infinite_tsr_partial C37_small_rotor_refuted C38_prescribed_Ct C38_no_swirl C39_arguments_unchanged_partial C39_refuted C40_continuous_is_momentum C40_discrete_is_momentum C60_half_line_biot_savart C60_straight_biot_savart C60_agree C62_finite_off_axis_partial C62_axis_refuted C70_self_similar C71_vortex_point C71_self_is_nan C72_superposition C72_same_as_vp_u C45_ring_u_biot_savart C45_singular_biot_savart C45_ring_u_polar_biot_savart C46_singular_forms_agree C46_ring_u_is_ring_u_polar C49_refuted C49_unknown_method C49_agree_outside_partial C50_superposition C65_point_doublet C65_finite C65_linear C65_even_under_inversion C65_polar_agrees_with_cartesian C65_polar_rejects_negative_radius C66_rotor_centre C67_skew_components_rotation C67_polar_components_rotation C68_rotor_plane_is_half_line_partial C68_near_axis_refuted C76_tangential_is_trapezoid_of_biot_savart_rows C51_axis C51_rotor_disk C52_finite_everywhere C53_mirror C53_linear_in_gamma C53_length_scaling C53_axisymmetric C55_finite_is_difference C56_raw_agrees C54_is_biot_savart C54_stack_of_rings C58_switch_by_distance C58_near_is_vc_tang C59_longi_finite_partial C59_axis_refuted C78_longi_is_biot_savart C79_far_field_accurate C79_switch_error C79_upstream_axis_accurate C41_iterations C42_RF_duplication C42_RC_duplication C42_RJ_duplication C42_RF_limit C42_RC_limit C43_converges C44_batch_refuted C68_near_axis_refuted C80_accuracy_refuted C08_sum_of_cylinders C08_above_one_silent C82_tangential_converges C82_longitudinal_converges C83_tangential C83_longitudinal C84_failed_call_refuted C26_tangential C26_single_cylinder_finite C85_root_refuted C85_swirl_doubles C85_multi_longi_ignores_ground C27_multi_superposition C86_radii_refuted C36_first_cylinder C95_warning_refuted C47_ring_u_finite_and_linear C47_ring_u_polar C87_linear_refuted C48_even_odd C48_axisymmetric C88_scaling_partial C88_scaling_refuted C57_straight_line C57_ring C57_cylinder C57_longi C57_skewed_tangential C57_skewed_root C89_skewed_longitudinal_refuted C89_skewed_total_refuted C89_rings_refuted C61_models_0_5 C96_core_models_refuted C63_semi_infinite_integrals C90_finite_integrals_partial C90_finite_I50_refuted C64_line_is_integral_of_doublets C64_zero_on_the_line C64_straight_is_point_sink C64_polar_agrees_with_cartesian C91_finite_line_partial C91_finite_line_refuted C69_Kzt_is_coleman C69_numerical_outputs_agree C69_Kxit_straight C92_relation_iff_partial C92_relation_refuted C73_models C93_dimension_refuted C77_longitudinal_is_trapezoid_of_biot_savart_lines C97_tangential_error C97_longitudinal_error C97_tangential_converges C97_longitudinal_converges C98_quadratures_converge C99_doublet_sum_converges C99_polar_sum_converges C100_trailed_lines_biot_savart C101_ellipse_is_the_far_wake C101_models_agree_far_downstream C101_vortex_points_agree C102_on_the_lines_refuted C103_doublet_line_approximates_sheet C103_doublet_line_approximates_skewed_cylinder C104_wake_axis_refuted C105_rotor_centre C105_rotor_plane C106_thrust_to_velocity C106_infinite_tsr C107_matches_centre_velocity C107_explicit_intensity C107_unmatched C107_setup_succeeds C108_farm_layout C108_empty C108_rotor_velocity C108_fitted_callback C108_adfarm_superposition C108_adfarm_empty C108_adfarm_unloaded C108_row_of_turbines C109_find_nearest C109_find_nearest_empty C109_find_exact C109_find_nan C109_centre_and_lines C109_curves_meet C110_rsquare C110_constant_data C111_relative_error C111_scale_invariant C111_at_one_station C111_applies C112_wind_coordinates C113_contours C113_positions C114_tangential C114_trailed C114_root C114_fewer_outputs C114_parts_add_up C115_array_written_refuted C116_continuous_momentum C116_tangential_induction C116_torque_option C118_get25 C119_axial_blockage C119_inexact_integral C119_monotone_along_the_wake C119_expansion C120_axis_velocity C120_thrust_to_axis C120_expansion C121_ring C121_cylinder C121_doublet C121_doublet_line C122_farm_axial C122_upstream C122_more_rows C122_ground C122_spacing_study C122_ground_study C123_opposite_points C123_rotor_centre C123_mirror C123_vertical_diameter C123_rotor_disk C123_far_wake C124_fKzt_is_the_fore_aft_variation C124_fKxit_is_the_radial_velocity C125_special_values C126_rings_are_the_cylinder C126_any_accuracy C126_straight C127_ring_is_a_doublet_far_away C128_near_axis C128_axis_zone C129_radial_near_axis C129_axial_near_axis C129_axis_band C130_tangential_sheet C130_longitudinal_sheet C131_swirl_of_circulation_partial C131_one_cylinder_refuted C132_axial_profile C133_superposition_rounding C133_reordering_rounding C133_refuted C134_wind_angle_partial C134_aligned_partial C134_skew_lost C134_refuted C135_axis_rounding C135_axis_relative C135_far C135_relative_refuted C136_sheet_band C136_refuted C137_thrust_to_axis C137_hub C138_radii_overwritten C138_radii_written_refuted C139_vertical C139_farm C141_full_refuted C141_wind_refuted C145_same_points C145_same_points_binary64 C145_kernels_binary64 C145_reversed C146_refuted C147_built C147_moved C147_query_partial C147_alike C147_farm_partial C147_loading_partial C147_loading_function C147_no_swirl C147_time_unit C147_refuted C147_root_line_refuted C148_query C148_yawed C148_moved C148_built C148_loaded C148_farm C148_swirl C149_accessors C149_lines C149_hub C150_mean C150_data_exact C150_matched_centre C150_refuted C151_loading C151_kernels C151_query_partial C151_farm_partial C151_axis_refuted C151_loading_refuted C151_longi_refuted C151_query_refuted C152_scaled C152_farm_scaled C152_opposite_binary64 C152_opposite_farm_binary64 C153_far_wind C153_ground C153_doublet_model C153_cylinder_far C153_farm C153_blockage C153_farm_as_one C153_thrust_to_far |
| A1 A2 A3 A4 A5 A6 | 1 | C38_minimiser_exists |
