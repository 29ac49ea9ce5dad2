{
 "C10_compute_u_query_partial": "C10_compute_u_query",
 "C10_failed_call_refuted": "C84_failed_call_refuted",
 "C26_swirl_doubles": "C85_swirl_doubles",
 "C26_multi_longi_ignores_ground": "C85_multi_longi_ignores_ground",
 "C26_root_refuted": "C85_root_refuted",
 "C27_multi_superposition_partial": "C27_multi_superposition",
 "C27_radii_refuted": "C86_radii_refuted",
 "C47_ring_u_polar_partial": "C47_ring_u_polar",
 "C47_linear_refuted": "C87_linear_refuted",
 "C48_scaling_partial": "C88_scaling_partial",
 "C48_scaling_refuted": "C88_scaling_refuted",
 "C57_straight_line_partial": "C57_straight_line",
 "C57_longi_partial": "C57_longi",
 "C57_skewed_root_partial": "C57_skewed_root",
 "C57_skewed_longitudinal_refuted": "C89_skewed_longitudinal_refuted",
 "C57_skewed_total_refuted": "C89_skewed_total_refuted",
 "C57_rings_refuted": "C89_rings_refuted",
 "C63_finite_integrals_partial": "C90_finite_integrals_partial",
 "C63_finite_I50_refuted": "C90_finite_I50_refuted",
 "C64_finite_line_partial": "C91_finite_line_partial",
 "C64_finite_line_refuted": "C91_finite_line_refuted",
 "C69_relation_iff_partial": "C92_relation_iff_partial",
 "C69_relation_refuted": "C92_relation_refuted",
 "C69_more_outputs_refuted": "C92_more_outputs_refuted",
 "C73_dimension_refuted": "C93_dimension_refuted",
 "C73_models_partial": "C73_models",
 "C75_crash_refuted": "C94_crash_refuted",
 "C75_crash_states_partial": "C94_crash_states_partial",
 "C75_first_save_crash_partial": "C94_first_save_crash_partial",
 "C36_warning_refuted": "C95_warning_refuted",
 "C36_first_cylinder_partial": "C36_first_cylinder",
 "C61_core_models_refuted": "C96_core_models_refuted",
 "C61_models_0_5_partial": "C61_models_0_5",
 "C63_finite_nonvacuous": "C90_nonvacuous",
 "C64_finite_nonvacuous": "C91_nonvacuous",
 "C26_full": "C85_full",
 "C61_full": "C96_full",
 "C73_full": "C93_full",
 "C47_full": "C87_full",
 "C36_full": "C95_full",
 "C79_wake_axis_refuted": "C104_wake_axis_refuted"
}