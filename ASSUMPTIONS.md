# Print Assumptions, per theorem

Generated by tools/gen_assumptions.py from the build output. All axioms are axioms of
Coq's standard library.

## Closed under the global context (no axioms)

C71_space_x, C23_framework_history, C39_only_labels, C39_surplus, C39_missing, C44_wrong_mask, C01_tensor_roundtrip, C01_voigt_roundtrip, C01_tensor4_roundtrip, C01_voigt4_roundtrip, C01_astensor_symmetric, C01_upper_triangle_kept, C05_transpose, C07_tril_symmetric, C07_tril_keeps_rest, C07_tril_writes, C07_tril_fixed_iff_symmetric, C07_idempotent, C07_in_place, C07_triu_mirror, C45_asvoigt, C45_astensor, C45_astensor4, C45_transpose, C45_tril_from_triu, C45_triu_from_tril, C62_tril_from_triu, C62_triu_from_tril, C50_force_displacement, C50_force_displacement_refuted

## `ClassicalDedekindReals.sig_forall_dec`

C66_dot, C66_dya, C66_dya_single, C66_cdya_ik, C66_cdya_il, C71_framework_x, C22_generalized_old_state, C39_by_label, C39_last_wins, C44_boolean_mask, C05_dya, C05_cdya_ik, C05_cdya_il, C06_eye, C45_asvoigt4, C45_trace, C45_det, C45_dev, C45_eye, C45_inv, C45_inv_determinant, C45_ddot22, C45_ddot44, C45_ddot42, C45_ddot24, C45_dot, C45_dya, C45_cdya, C45_cdya_ik, C45_cdya_il, C45_eigh, C62_dya, C62_cdya_ik, C62_cdya_il, C62_dya_shape, C62_cdya_ik_il_shape, C77_symmetric, C79_forces_balanced, C27_invariants, C34_invariants, C34_generalized, C34_third_order_deformation, C75_invariants, C75_third_order_deformation, C57_shapes, C63_math, C63_inv, C63_cdya, C63_cdya_floats, C63_cdya_out_truncates, C63_tril_out_truncates, C63_dya_out

## `ClassicalDedekindReals.sig_forall_dec`, `FunctionalExtensionality.functional_extensionality_dep`

C66_ddot22, C66_ddot44, C66_ddot42, C66_ddot24, C66_cdya_less, C66_cdya_more, C66_cdya_silent, C67_invariants_gradient, C67_invariants_hessian, C67_generalized_gradient, C81_third_order_parameters, C73_same_residuals, C73_normal_equations, C73_one_parameter, C73_units_parameters, C73_repeated, C47_math_functions, C47_math_functions_out, C47_invariants, C70_float64, C16_returns_iff_partial, C16_third_order_deformation, C16_gradient_returns, C17_invariants, C22_new_state, C22_old_state_partial, C22_returned_state, C23_invariants, C35_planar, C35_biaxial, C36_pressure, C39_order, C40_stretch_stress, C40_total, C40_recover, C40_units, C40_python_lists, C41_squares, C41_order, C44_masks, C44_no_mask, C44_short_mask_list, C02_trace, C02_det, C02_det_cauchy_green, C03_inv_two_sided, C03_inv_symmetric, C03_determinant_given, C03_other_determinant, C04_dot, C04_ddot22, C04_ddot42, C04_ddot24, C04_ddot44, C05_cdya, C05_cdya_same_object, C05_cdya_symmetries, C05_cdya_bilinear, C05_dya_transpose, C05_cdya_ik_major, C06_dev_trace_free, C06_dev_idempotent, C06_dev_fixed_points, C06_dev_split, C08_values, C08_bases_projectors, C08_rebuild, C08_rebuild_returned, C09_none_consistent, C09_none_exactly, C62_inv, C62_inv_in_place, C62_inv_determinant, C62_cdya, C62_inv_shape, C49_einsum_out, C49_einsum_new, C49_trailing_axes, C49_summed_label, C49_row_split_refuted, C50_experiment_curve, C50_simulation_curve, C50_unequal_data, C50_mean_relative_std, C50_mean_relative_std_undefined, C53_gamma

## `ClassicalDedekindReals.sig_forall_dec`, `ClassicalDedekindReals.sig_not_dec`

C52_defgrad, C77_residual, C77_stationary, C77_descent, C60_axes_exist, C27_stretches, C28_optional_arguments, C34_stretches, C75_generalized, C75_W33_refuted, C63_third_order_deformation, C63_generalized, C51_smooth_invariants, C51_smooth_stretches, C65_nothing_to_fit, C65_no_simulations, C65_short_mask, C65_long_mask, C65_extra_simulations, C65_missing_simulations

## `ClassicalDedekindReals.sig_forall_dec`, `ClassicalDedekindReals.sig_not_dec`, `Classical_Prop.classic`

C71_first_and_last, C71_one_entry, C71_empty, C71_no_gradient, C71_state_passed, C71_hessian_one, C71_one_point, C71_initial, C71_initial_stress_free, C58_uniaxial, C58_planar, C58_biaxial, C58_stretch_of_force, C58_ogden_closed_forms, C58_ogden, C58_ogden_stretch_of_force, C58_negative_parameter_refuted, C58_ogden_exponent_refuted, C25_ogden, C30_ogden, C25_generalized, C30_generalized, C19_deformation_ogden_partial, C19_deformation_generalized_partial, C31_ogden_partial, C56_no_shear, C56_symmetric_elasticity, C73_linear_materials, C73_generalized, C73_measures, C69_stress, C69_elasticity, C69_machine, C69_curves, C68_stress, C68_elasticity, C68_machine, C68_curves, C70_ogden_stress, C70_generalized_stress, C70_ogden_elasticity, C70_generalized_elasticity, C70_stretch_curves, C70_stretch_machine, C80_inexact, C80_modified_newton, C80_library, C80_floating_point, C80_iterations_exist, C61_linear_elasticity, C61_linear_third_order_deformation, C61_linear_ogden, C78_new_load, C78_load_path, C78_library, C78_library_path, C45_invariants_gradient, C45_invariants_hessian, C45_third_order_gradient, C45_third_order_hessian, C45_stretches_gradient, C45_stretches_hessian, C45_ogden_gradient, C45_ogden_hessian, C45_generalized_gradient, C45_generalized_hessian, C45_batch_coupling_refuted, C46_third_order_gradient, C46_third_order_gradient_raises, C46_third_order_hessian, C46_third_order_hessian_raises, C46_ogden_gradient, C46_generalized_gradient, C46_ogden_hessian, C46_generalized_hessian, C46_refuted, C52_pointwise, C52_third_order, C52_ogden, C52_generalized, C52_library_acts, C52_number, C52_column, C52_matrix_raises, C52_documented, C52_shape_refuted, C52_not_finalized_raises, C52_not_finalized_library, C76_newton, C76_third_order_deformation, C76_third_order_isochoric, C76_neo_hooke, C76_ogden, C76_generalized, C76_library, C76_library_point, C77_stable, C77_necessary, C77_isolated, C77_library_energy, C77_library_symmetric, C77_library, C60_principal_stresses, C60_third_order_deformation, C60_ordered_distortional, C60_ordered_deformation, C60_ordered_mooney_rivlin, C60_ogden, C60_ordered_ogden, C60_negative_parameter_refuted, C79_moments_balanced, C79_rotated_body, C79_rigid_modes, C79_free_body, C72_alone, C72_every_schedule, C72_own_objects, C72_same_question, C72_lock, C72_lock_progress, C72_shared_space_refuted, C72_shared_framework_refuted, C74_commutes, C74_commutes_undeformed, C74_simple_shear, C74_shear_energy, C74_invariants, C74_third_order_deformation, C61_one_modulus, C61_generalized_deformation, C61_generalized_strain, C61_ogden, C61_invariants, C61_third_order_deformation, C24_frame_indifference, C24_named_cases, C25_stress, C25_third_order_deformation, C26_tangent, C26_third_order_deformation, C27_spaces, C28_configurations, C28_stresses, C28_finalize_stress, C28_finalize_elasticity, C29_unimodular, C29_volume_change, C29_deviatoric, C30_stress, C30_third_order_deformation, C31_tangent_partial, C31_neo_hooke, C31_tangent_refuted, C32_distortional, C32_distortional_invariants, C32_deformation, C33_pressure, C33_linear_partial, C33_actual_stress, C33_neo_hooke, C33_refuted, C34_ogden, C34_space_stress, C34_space_tangent_partial, C34_space_tangent_refuted, C55_stress, C55_elasticity, C55_curves, C55_machine, C75_stress, C75_tangent, C75_curves, C75_ogden, C75_ogden_order, C75_ogden_merge, C57_stress, C57_tangent_partial, C57_cauchy, C57_models_stress, C57_models_tangent_partial, C57_neo_hooke, C57_tangent_refuted, C48_gradient, C48_gradient_raises, C48_only_separable, C48_hessian, C48_hessian_error, C48_hessian_raises, C48_hessian_exp_sqrt, C48_framework_gradient_partial, C48_framework_hessian_partial, C48_framework_raises, C48_framework_hessian_raises, C48_yeoh, C48_gradient_refuted, C48_hessian_refuted, C48_hessian_refuted_exp, C63_gradient, C63_hessian, C63_floats, C63_ogden, C63_projected_spaces_reject, C63_deformation_accepts, C63_deformation_force0, C63_integer_parameter, C63_overflow, C51_work_partial, C51_closed_motion, C51_path_independent, C51_continuous_stress, C51_third_order_deformation, C51_ogden, C51_generalized_third_order_deformation, C51_uniaxial_area, C51_planar_area, C51_biaxial_area, C51_dilatational_refuted, C65_missing_simulations_refuted

## `ClassicalDedekindReals.sig_forall_dec`, `ClassicalDedekindReals.sig_not_dec`, `FunctionalExtensionality.functional_extensionality_dep`

C67_stretches_gradient, C67_stretches_hessian, C73_fit, C73_initial_values, C73_recovers, C73_units, C47_stretches, C14_gradient, C14_third_order_deformation, C15_hessian_partial, C15_third_order_deformation, C15_hessian_refuted, C15_hessian_error, C16_hessian_refuted, C22_old_state_refuted, C22_new_state_stretches, C22_returned_state_stretches, C23_stretches, C35_uniaxial, C35_undeformed, C36_load_cases, C41_residual_vector, C41_minimises, C42_reports_partial, C42_errors, C42_norm, C42_integers, C42_tuples, C43_optimiser_raises, C43_all_or_nothing, C43_other_arrays, C09_gradient, C09_hessian, C12_gradient, C12_hessian_partial, C12_hessian_error, C50_optimize_plot, C50_plot_before_fit, C08_lapack_exists, C17_stretches_gradient, C17_stretches, C17_stretches_any_eigenbasis, C17_symmetric_energies, C17_generalized, C18_gradient, C18_energy_exists, C18_generalized, C19_hessian_partial, C19_generalized_third_order_deformation, C19_hessian_error

## `ClassicalDedekindReals.sig_forall_dec`, `ClassicalDedekindReals.sig_not_dec`, `Classical_Prop.classic`, `FunctionalExtensionality.functional_extensionality_dep`

C67_deformation, C67_distortional_stress, C67_distortional_elasticity, C67_stretches_hessian_refuted, C64_second_derivative, C64_second_derivative_distortional, C64_deformation, C64_distortional, C64_deformation_refuted, C64_distortional_refuted, C81_gradient, C81_hessian, C81_local, C81_local_hessian, C81_example, C81_third_order_raises, C81_ogden_accepts, C73_third_order_deformation, C73_ogden, C47_space, C47_library, C70_stress, C70_elasticity, C70_curves, C70_machine, C22_returned_state_spaces, C23_models, C23_space_history, C36_undeformed, C37_uniaxial, C37_planar, C37_biaxial, C38_uniaxial, C38_planar, C38_biaxial, C38_any_invariant_model, C38_same_curve, C39_documented_material, C38_named_parameters, C38_default_parameters, C42_integers_refuted, C59_affine, C59_convex, C59_fit, C59_same_residuals, C59_initial_values, C59_mooney_rivlin, C59_planar_not_identifiable, C10_gradient, C10_hessian, C10_mixed_none, C10_surplus_ignored, C11_strain_derivatives, C11_deformation_derivatives, C11_values, C11_exponent_zero_raises, C12_hessian_refuted, C12_measures, C13_deformation, C13_strain, C13_load_cases, C13_load_case_factors, C13_constants, C49_spaces, C49_spaces_trailing_axes, C53_float64, C53_trace, C53_det, C53_dot, C53_ddot22, C53_ddot42, C53_ddot24, C53_ddot44, C53_dyads, C53_cdya, C53_cdya_same, C53_dev, C53_inv, C54_stress, C54_second_piola_kirchhoff, C54_elasticity, C54_cauchy, C54_neo_hooke, C54_neo_hooke_float64, C54_frame_indifference, C17_ogden, C18_ogden, C19_ogden, C19_ogden_error_partial, C19_hessian_refuted, C20_limit, C20_ogden, C21_neo_hooke, C21_generalized_gradient, C21_generalized_hessian, C31_error_partial
