{
 "claims": [
  {
   "property": "C01",
   "status": "proved",
   "theorems": [
    "C01_tensor_roundtrip",
    "C01_voigt_roundtrip",
    "C01_tensor4_roundtrip",
    "C01_voigt4_roundtrip",
    "C01_astensor_symmetric",
    "C01_upper_triangle_kept"
   ],
   "note": ""
  },
  {
   "property": "C02",
   "status": "proved",
   "theorems": [
    "C02_trace",
    "C02_det",
    "C02_det_cauchy_green"
   ],
   "note": ""
  },
  {
   "property": "C03",
   "status": "proved",
   "theorems": [
    "C03_inv_two_sided",
    "C03_inv_symmetric",
    "C03_determinant_given",
    "C03_other_determinant"
   ],
   "note": ""
  },
  {
   "property": "C04",
   "status": "proved",
   "theorems": [
    "C04_dot",
    "C04_ddot22",
    "C04_ddot42",
    "C04_ddot24",
    "C04_ddot44"
   ],
   "note": ""
  },
  {
   "property": "C05",
   "status": "proved",
   "theorems": [
    "C05_dya",
    "C05_cdya_ik",
    "C05_cdya_il",
    "C05_cdya",
    "C05_cdya_same_object",
    "C05_cdya_symmetries",
    "C05_cdya_bilinear",
    "C05_dya_transpose",
    "C05_cdya_ik_major",
    "C05_transpose"
   ],
   "note": ""
  },
  {
   "property": "C06",
   "status": "proved",
   "theorems": [
    "C06_dev_trace_free",
    "C06_dev_idempotent",
    "C06_dev_fixed_points",
    "C06_dev_split",
    "C06_eye"
   ],
   "note": ""
  },
  {
   "property": "C07",
   "status": "proved",
   "theorems": [
    "C07_tril_symmetric",
    "C07_tril_keeps_rest",
    "C07_tril_writes",
    "C07_tril_fixed_iff_symmetric",
    "C07_idempotent",
    "C07_in_place",
    "C07_triu_mirror"
   ],
   "note": ""
  },
  {
   "property": "C08",
   "status": "proved",
   "theorems": [
    "C08_values",
    "C08_bases_projectors",
    "C08_rebuild",
    "C08_rebuild_returned",
    "C08_lapack_exists"
   ],
   "note": "LAPACK enters as an oracle whose result is only assumed to satisfy eig_legal at the given matrix."
  },
  {
   "property": "C09",
   "status": "proved",
   "theorems": [
    "C09_gradient",
    "C09_hessian",
    "C09_none_consistent",
    "C09_none_exactly"
   ],
   "note": ""
  },
  {
   "property": "C10",
   "status": "proved",
   "theorems": [
    "C10_gradient",
    "C10_hessian",
    "C10_mixed_none",
    "C10_surplus_ignored"
   ],
   "note": ""
  },
  {
   "property": "C11",
   "status": "proved",
   "theorems": [
    "C11_strain_derivatives",
    "C11_deformation_derivatives",
    "C11_values",
    "C11_exponent_zero_raises"
   ],
   "note": ""
  },
  {
   "property": "C12",
   "status": "partial",
   "theorems": [
    "C12_gradient",
    "C12_hessian_partial",
    "C12_hessian_refuted",
    "C12_hessian_error",
    "C12_measures"
   ],
   "note": "gradient proved; hessian proved for models whose dW/dI3 is None or 0; C12_hessian_refuted proves that the full hessian claim is false of the code (index list [2,0,1] used as values); C12_hessian_error gives the exact error for every model."
  },
  {
   "property": "C13",
   "status": "proved",
   "theorems": [
    "C13_deformation",
    "C13_strain",
    "C13_load_cases",
    "C13_load_case_factors",
    "C13_constants"
   ],
   "note": ""
  },
  {
   "property": "C14",
   "status": "proved",
   "theorems": [
    "C14_gradient",
    "C14_third_order_deformation"
   ],
   "note": ""
  },
  {
   "property": "C15",
   "status": "partial",
   "theorems": [
    "C15_hessian_partial",
    "C15_third_order_deformation",
    "C15_hessian_refuted",
    "C15_hessian_error"
   ],
   "note": "proved for models that return no d2WdI3dI3 (this includes every ThirdOrderDeformation model); C15_hessian_refuted and C15_hessian_error prove that, and how, the code is wrong otherwise (lines 225-226 add the (2,2) term)."
  },
  {
   "property": "C16",
   "status": "partial",
   "theorems": [
    "C16_returns_iff_partial",
    "C16_hessian_refuted",
    "C16_third_order_deformation",
    "C16_gradient_returns"
   ],
   "note": "exact characterisation of the None patterns for which hessian returns; the unconditional claim is refuted (C16_hessian_refuted: UnboundLocalError)."
  },
  {
   "property": "C17",
   "status": "proved",
   "theorems": [
    "C17_invariants",
    "C17_stretches_gradient",
    "C17_stretches",
    "C17_stretches_any_eigenbasis",
    "C17_symmetric_energies",
    "C17_ogden",
    "C17_generalized"
   ],
   "note": "Invariants: any model; Stretches: any exchangeable model, whatever eigenbasis LAPACK returns; the property speaks about the gradient, the hessian is covered as well."
  },
  {
   "property": "C18",
   "status": "proved",
   "theorems": [
    "C18_gradient",
    "C18_energy_exists",
    "C18_ogden",
    "C18_generalized"
   ],
   "note": ""
  },
  {
   "property": "C19",
   "status": "partial",
   "theorems": [
    "C19_deformation_ogden_partial",
    "C19_deformation_generalized_partial",
    "C19_hessian_partial",
    "C19_ogden",
    "C19_generalized_third_order_deformation",
    "C19_hessian_error",
    "C19_ogden_error_partial",
    "C19_hessian_refuted"
   ],
   "note": "proved for principal stretches that coincide or whose squares differ by more than np.isclose's absolute tolerance 1e-8; C19_hessian_refuted proves the claim false of the code inside the tolerance; C19_hessian_error says exactly which components are wrong there, C19_ogden_error_partial bounds the error of Ogden (by 1e-8 times a factor)."
  },
  {
   "property": "C20",
   "status": "proved",
   "theorems": [
    "C20_limit",
    "C20_ogden"
   ],
   "note": ""
  },
  {
   "property": "C21",
   "status": "proved",
   "theorems": [
    "C21_neo_hooke",
    "C21_generalized_gradient",
    "C21_generalized_hessian"
   ],
   "note": ""
  },
  {
   "property": "C22",
   "status": "partial",
   "theorems": [
    "C22_generalized_old_state",
    "C22_old_state_refuted",
    "C22_new_state",
    "C22_new_state_stretches",
    "C22_old_state_partial",
    "C22_returned_state",
    "C22_returned_state_stretches",
    "C22_returned_state_spaces"
   ],
   "note": "GeneralizedInvariantsModel uses the old state; Invariants and Stretches pass the updated state to material.hessian (C22_old_state_refuted); holds for models that do not change their state."
  },
  {
   "property": "C23",
   "status": "proved",
   "theorems": [
    "C23_invariants",
    "C23_stretches",
    "C23_models",
    "C23_framework_history",
    "C23_space_history"
   ],
   "note": ""
  },
  {
   "property": "C24",
   "status": "proved",
   "theorems": [
    "C24_frame_indifference",
    "C24_named_cases"
   ],
   "note": ""
  },
  {
   "property": "C25",
   "status": "proved",
   "theorems": [
    "C25_ogden",
    "C25_generalized",
    "C25_stress",
    "C25_third_order_deformation"
   ],
   "note": ""
  },
  {
   "property": "C26",
   "status": "proved",
   "theorems": [
    "C26_tangent",
    "C26_third_order_deformation"
   ],
   "note": ""
  },
  {
   "property": "C27",
   "status": "proved",
   "theorems": [
    "C27_invariants",
    "C27_stretches",
    "C27_spaces"
   ],
   "note": ""
  },
  {
   "property": "C28",
   "status": "proved",
   "theorems": [
    "C28_configurations",
    "C28_stresses",
    "C28_optional_arguments",
    "C28_finalize_stress",
    "C28_finalize_elasticity"
   ],
   "note": ""
  },
  {
   "property": "C29",
   "status": "proved",
   "theorems": [
    "C29_unimodular",
    "C29_volume_change",
    "C29_deviatoric"
   ],
   "note": ""
  },
  {
   "property": "C30",
   "status": "proved",
   "theorems": [
    "C30_ogden",
    "C30_generalized",
    "C30_stress",
    "C30_third_order_deformation"
   ],
   "note": ""
  },
  {
   "property": "C31",
   "status": "partial",
   "theorems": [
    "C31_ogden_partial",
    "C31_tangent_partial",
    "C31_neo_hooke",
    "C31_tangent_refuted",
    "C31_error_partial"
   ],
   "note": "proved where the material tangent is zero or above the absolute tolerance of np.allclose; C31_tangent_refuted proves the claim false of the code for small material tangents; C31_error_partial bounds the error there by 1e-8 times a factor that depends on F only."
  },
  {
   "property": "C32",
   "status": "proved",
   "theorems": [
    "C32_distortional",
    "C32_distortional_invariants",
    "C32_deformation"
   ],
   "note": ""
  },
  {
   "property": "C33",
   "status": "partial",
   "theorems": [
    "C33_pressure",
    "C33_linear_partial",
    "C33_actual_stress",
    "C33_neo_hooke",
    "C33_refuted"
   ],
   "note": "pressure form proved; for every energy C33_actual_stress says what the stress is instead; stress and tangent proved for energies linear in C; C33_refuted proves both claims false of the code for psi=(I1-3)^2 (line 22 uses I3^(1/3) C instead of I3^(1/3) 1)."
  },
  {
   "property": "C34",
   "status": "partial",
   "theorems": [
    "C34_invariants",
    "C34_stretches",
    "C34_generalized",
    "C34_ogden",
    "C34_third_order_deformation",
    "C34_space_stress",
    "C34_space_tangent_partial",
    "C34_space_tangent_refuted"
   ],
   "note": "models, frameworks, all stresses and the tangents of Deformation and Dilatational proved; Distortional tangent proved above the np.allclose tolerance and refuted below it."
  },
  {
   "property": "C35",
   "status": "proved",
   "theorems": [
    "C35_uniaxial",
    "C35_planar",
    "C35_biaxial",
    "C35_undeformed"
   ],
   "note": ""
  },
  {
   "property": "C36",
   "status": "proved",
   "theorems": [
    "C36_pressure",
    "C36_load_cases",
    "C36_undeformed"
   ],
   "note": ""
  },
  {
   "property": "C37",
   "status": "proved",
   "theorems": [
    "C37_uniaxial",
    "C37_planar",
    "C37_biaxial"
   ],
   "note": ""
  },
  {
   "property": "C38",
   "status": "proved",
   "theorems": [
    "C38_uniaxial",
    "C38_planar",
    "C38_biaxial",
    "C38_any_invariant_model",
    "C38_same_curve",
    "C38_named_parameters",
    "C38_default_parameters"
   ],
   "note": ""
  },
  {
   "property": "C39",
   "status": "proved",
   "theorems": [
    "C39_by_label",
    "C39_last_wins",
    "C39_only_labels",
    "C39_surplus",
    "C39_missing",
    "C39_order",
    "C39_documented_material"
   ],
   "note": ""
  },
  {
   "property": "C40",
   "status": "proved",
   "theorems": [
    "C40_stretch_stress",
    "C40_total",
    "C40_recover",
    "C40_units",
    "C40_python_lists"
   ],
   "note": "numpy arrays; C40_python_lists: Python lists (documented as array_like) raise TypeError."
  },
  {
   "property": "C41",
   "status": "proved",
   "theorems": [
    "C41_residual_vector",
    "C41_squares",
    "C41_order",
    "C41_minimises"
   ],
   "note": "scipy.optimize.curve_fit is an oracle; that it returns a minimiser is a hypothesis of C41_minimises only."
  },
  {
   "property": "C42",
   "status": "partial",
   "theorems": [
    "C42_reports_partial",
    "C42_errors",
    "C42_norm",
    "C42_integers",
    "C42_integers_refuted",
    "C42_tuples"
   ],
   "note": "proved for float arrays and lists; C42_integers_refuted: integer arrays are truncated; C42_tuples: tuples raise."
  },
  {
   "property": "C43",
   "status": "proved",
   "theorems": [
    "C43_optimiser_raises",
    "C43_all_or_nothing",
    "C43_other_arrays"
   ],
   "note": "C43_all_or_nothing covers every exception, not only those of the optimiser."
  },
  {
   "property": "C44",
   "status": "proved",
   "theorems": [
    "C44_masks",
    "C44_boolean_mask",
    "C44_no_mask",
    "C44_wrong_mask",
    "C44_short_mask_list"
   ],
   "note": ""
  },
  {
   "property": "C45",
   "status": "partial",
   "theorems": [
    "C45_asvoigt",
    "C45_asvoigt4",
    "C45_astensor",
    "C45_astensor4",
    "C45_trace",
    "C45_det",
    "C45_dev",
    "C45_eye",
    "C45_transpose",
    "C45_inv",
    "C45_inv_determinant",
    "C45_ddot22",
    "C45_ddot44",
    "C45_ddot42",
    "C45_ddot24",
    "C45_dot",
    "C45_dya",
    "C45_cdya",
    "C45_cdya_ik",
    "C45_cdya_il",
    "C45_eigh",
    "C45_tril_from_triu",
    "C45_triu_from_tril",
    "C45_invariants_gradient",
    "C45_invariants_hessian",
    "C45_third_order_gradient",
    "C45_third_order_hessian",
    "C45_stretches_gradient",
    "C45_stretches_hessian",
    "C45_ogden_gradient",
    "C45_ogden_hessian",
    "C45_generalized_gradient",
    "C45_generalized_hessian",
    "C45_batch_coupling_refuted"
   ],
   "note": "all math functions; all library models in all spaces; user models that act pointwise; non-scalar operands have the same number of trailing axes here (operands with different numbers of axes: C66); Distortional.hessian only for batches whose entries agree on the np.allclose test: C45_batch_coupling_refuted proves that otherwise the entry of the batch differs from the entry alone."
  },
  {
   "property": "C46",
   "status": "partial",
   "theorems": [
    "C46_third_order_gradient",
    "C46_third_order_gradient_raises",
    "C46_third_order_hessian",
    "C46_third_order_hessian_raises",
    "C46_ogden_gradient",
    "C46_generalized_gradient",
    "C46_ogden_hessian",
    "C46_generalized_hessian",
    "C46_refuted"
   ],
   "note": "exact characterisation for ThirdOrderDeformation (\u2026_raises: blocked configurations raise ValueError, all others return); all configurations for Ogden and GeneralizedInvariantsModel(ThirdOrderDeformation); C46_refuted: the unrestricted claim is false (Neo-Hooke with force=0)."
  },
  {
   "property": "C47",
   "status": "proved",
   "theorems": [
    "C47_math_functions",
    "C47_math_functions_out",
    "C47_space",
    "C47_invariants",
    "C47_stretches",
    "C47_library"
   ],
   "note": "numpy's copy/view rules as modelled in NDCore.v/NDVoigt.v; user models are assumed not to write into the caller's arrays themselves."
  },
  {
   "property": "C48",
   "status": "partial",
   "theorems": [
    "C48_gradient",
    "C48_gradient_raises",
    "C48_only_separable",
    "C48_hessian",
    "C48_hessian_error",
    "C48_hessian_raises",
    "C48_hessian_exp_sqrt",
    "C48_framework_gradient_partial",
    "C48_framework_hessian_partial",
    "C48_framework_raises",
    "C48_framework_hessian_raises",
    "C48_yeoh",
    "C48_gradient_refuted",
    "C48_hessian_refuted",
    "C48_hessian_refuted_exp"
   ],
   "note": "whenever gradient/hessian return they are right (all energies built from + - * / ** exp log sqrt); exact conditions under which gradient and hessian raise (C48_gradient_raises, C48_hessian_raises); the unrestricted claim is refuted: gradient raises for every energy with an operation on two invariants (retain_graph=False), hessian raises for energies linear in an invariant and for nested saved operations; inside Invariants the hessian raises UnboundLocalError for every energy that mentions I3 and not I2 (C48_framework_hessian_raises)."
  },
  {
   "property": "C49",
   "status": "partial",
   "theorems": [
    "C49_einsum_out",
    "C49_einsum_new",
    "C49_trailing_axes",
    "C49_spaces",
    "C49_spaces_trailing_axes",
    "C49_summed_label",
    "C49_row_split_refuted"
   ],
   "note": "proved for every splitting that is free of races (in particular along the trailing axes) or gathers results before writing, every thread count and schedule; C49_row_split_refuted: if threads split the rows of a call whose out= is an operand and write into it directly, some schedules give a wrong stress. Which splitting einsumt chooses is not decided by the repository (its source is not available here). Sums are over R, so the rounding of reordered sums is not covered."
  },
  {
   "property": "C50",
   "status": "partial",
   "theorems": [
    "C50_experiment_curve",
    "C50_simulation_curve",
    "C50_force_displacement",
    "C50_force_displacement_refuted",
    "C50_unequal_data",
    "C50_optimize_plot",
    "C50_plot_before_fit",
    "C50_mean_relative_std",
    "C50_mean_relative_std_undefined"
   ],
   "note": "C50_force_displacement_refuted: Simulation.plot_force_displacement raises AttributeError for every Simulation; everything else in the claim is proved. Pixels and number formatting are not modelled."
  },
  {
   "property": "C51",
   "status": "partial",
   "theorems": [
    "C51_work_partial",
    "C51_closed_motion",
    "C51_path_independent",
    "C51_continuous_stress",
    "C51_smooth_invariants",
    "C51_smooth_stretches",
    "C51_third_order_deformation",
    "C51_ogden",
    "C51_generalized_third_order_deformation",
    "C51_uniaxial_area",
    "C51_planar_area",
    "C51_biaxial_area",
    "C51_dilatational_refuted"
   ],
   "note": "proved for Deformation and Distortional with every shipped model (also across coinciding stretches) and for the lab's curves; C51_dilatational_refuted: the stress of the Dilatational space for psi=(I1-3)^2 is not the gradient of any energy function, so the claim is false of the code there."
  },
  {
   "property": "C52",
   "status": "proved",
   "theorems": [
    "C52_defgrad",
    "C52_pointwise",
    "C52_third_order",
    "C52_ogden",
    "C52_generalized",
    "C52_library_acts",
    "C52_number",
    "C52_column",
    "C52_matrix_raises",
    "C52_documented",
    "C52_shape_refuted",
    "C52_not_finalized_raises",
    "C52_not_finalized_library"
   ],
   "note": "one-dimensional arrays and numbers; C52_shape_refuted: a (2,1) array of stretches (not documented as allowed) silently gives a (2,2) array that mixes the stress of one stretch with the deformation of another."
  },
  {
   "property": "C53",
   "status": "proved",
   "theorems": [
    "C53_gamma",
    "C53_float64",
    "C53_trace",
    "C53_det",
    "C53_dot",
    "C53_ddot22",
    "C53_ddot42",
    "C53_ddot24",
    "C53_ddot44",
    "C53_dyads",
    "C53_cdya",
    "C53_cdya_same",
    "C53_dev",
    "C53_inv"
   ],
   "note": "standard model of floating point (no overflow, no subnormals); C53_float64 proves with Flocq that round-to-nearest-even with 53 bits is an instance."
  },
  {
   "property": "C54",
   "status": "proved",
   "theorems": [
    "C54_stress",
    "C54_second_piola_kirchhoff",
    "C54_elasticity",
    "C54_cauchy",
    "C54_neo_hooke",
    "C54_neo_hooke_float64",
    "C54_frame_indifference"
   ],
   "note": "standard model of floating point (no overflow, no subnormals)."
  },
  {
   "property": "C55",
   "status": "proved",
   "theorems": [
    "C55_stress",
    "C55_elasticity",
    "C55_curves",
    "C55_machine"
   ],
   "note": "standard model of floating point (no overflow, no subnormals); u also bounds the error of pow and sqrt. K and u0 depend on F and the parameters."
  },
  {
   "property": "C56",
   "status": "proved",
   "theorems": [
    "C56_no_shear",
    "C56_symmetric_elasticity"
   ],
   "note": ""
  },
  {
   "property": "C57",
   "status": "partial",
   "theorems": [
    "C57_stress",
    "C57_tangent_partial",
    "C57_shapes",
    "C57_cauchy",
    "C57_models_stress",
    "C57_models_tangent_partial",
    "C57_neo_hooke",
    "C57_tangent_refuted"
   ],
   "note": "stress: proved in full; tangent: proved in Deformation and Dilatational, and in Distortional where the material's tangent is zero or above the tolerance of np.allclose (always for Neo-Hooke), since below it the code drops that tangent; C57_tangent_refuted proves the unrestricted tangent claim false of the code (a rotation moves the largest component across the tolerance)."
  },
  {
   "property": "C58",
   "status": "proved",
   "theorems": [
    "C58_uniaxial",
    "C58_planar",
    "C58_biaxial",
    "C58_stretch_of_force",
    "C58_ogden_closed_forms",
    "C58_ogden",
    "C58_ogden_stretch_of_force",
    "C58_negative_parameter_refuted",
    "C58_ogden_exponent_refuted"
   ],
   "note": "C58_negative_parameter_refuted and C58_ogden_exponent_refuted show that the conditions on signs and exponents are needed."
  },
  {
   "property": "C59",
   "status": "proved",
   "theorems": [
    "C59_affine",
    "C59_convex",
    "C59_fit",
    "C59_same_residuals",
    "C59_initial_values",
    "C59_mooney_rivlin",
    "C59_planar_not_identifiable"
   ],
   "note": "trusted about scipy: that the parameters it returns are a local minimiser (scipy_local) of the size of the initial ones."
  },
  {
   "property": "C60",
   "status": "proved",
   "theorems": [
    "C60_axes_exist",
    "C60_principal_stresses",
    "C60_third_order_deformation",
    "C60_ordered_distortional",
    "C60_ordered_deformation",
    "C60_ordered_mooney_rivlin",
    "C60_ogden",
    "C60_ordered_ogden",
    "C60_negative_parameter_refuted"
   ],
   "note": "C60_negative_parameter_refuted: with a negative C20 the order of the principal stresses can be wrong."
  },
  {
   "property": "C61",
   "status": "proved",
   "theorems": [
    "C61_linear_elasticity",
    "C61_linear_third_order_deformation",
    "C61_linear_ogden",
    "C61_one_modulus",
    "C61_generalized_deformation",
    "C61_generalized_strain",
    "C61_ogden",
    "C61_invariants",
    "C61_third_order_deformation"
   ],
   "note": ""
  },
  {
   "property": "C62",
   "status": "proved",
   "theorems": [
    "C62_inv",
    "C62_inv_in_place",
    "C62_inv_determinant",
    "C62_dya",
    "C62_cdya",
    "C62_cdya_ik",
    "C62_cdya_il",
    "C62_tril_from_triu",
    "C62_triu_from_tril",
    "C62_dya_shape",
    "C62_cdya_ik_il_shape",
    "C62_inv_shape"
   ],
   "note": ""
  },
  {
   "property": "C63",
   "status": "proved",
   "theorems": [
    "C63_gradient",
    "C63_hessian",
    "C63_floats",
    "C63_third_order_deformation",
    "C63_ogden",
    "C63_generalized",
    "C63_projected_spaces_reject",
    "C63_deformation_accepts",
    "C63_deformation_force0",
    "C63_integer_parameter",
    "C63_overflow",
    "C63_inv",
    "C63_cdya",
    "C63_cdya_floats",
    "C63_cdya_out_truncates",
    "C63_tril_out_truncates",
    "C63_dya_out",
    "C63_math"
   ],
   "note": ""
  },
  {
   "property": "C64",
   "status": "proved",
   "theorems": [
    "C64_second_derivative",
    "C64_second_derivative_distortional",
    "C64_deformation",
    "C64_distortional",
    "C64_deformation_refuted",
    "C64_distortional_refuted"
   ],
   "note": ""
  },
  {
   "property": "C65",
   "status": "proved",
   "theorems": [
    "C65_nothing_to_fit",
    "C65_no_simulations",
    "C65_short_mask",
    "C65_long_mask",
    "C65_extra_simulations",
    "C65_missing_simulations",
    "C65_missing_simulations_refuted"
   ],
   "note": ""
  },
  {
   "property": "C66",
   "status": "proved",
   "theorems": [
    "C66_ddot22",
    "C66_ddot44",
    "C66_ddot42",
    "C66_ddot24",
    "C66_dot",
    "C66_dya",
    "C66_dya_single",
    "C66_cdya_ik",
    "C66_cdya_il",
    "C66_cdya_less",
    "C66_cdya_more",
    "C66_cdya_silent"
   ],
   "note": ""
  },
  {
   "property": "C67",
   "status": "partial",
   "theorems": [
    "C67_deformation",
    "C67_distortional_stress",
    "C67_distortional_elasticity",
    "C67_invariants_gradient",
    "C67_invariants_hessian",
    "C67_generalized_gradient",
    "C67_stretches_gradient",
    "C67_stretches_hessian",
    "C67_stretches_hessian_refuted"
   ],
   "note": "proved for Deformation, Distortional (elasticity tensor: where np.allclose does not drop the material tangent, C31), Invariants (hessian: without d2WdI3dI3, which the code never gets right, C15/C16), the gradients of GeneralizedInvariants and Stretches, and a corrected formula for Stretches.hessian; the printed formula for Stretches.hessian is refuted (C67_stretches_hessian_refuted). The printed second derivatives of GeneralizedInvariants contain misprints and are covered by C12 instead."
  },
  {
   "property": "C68",
   "status": "proved",
   "theorems": [
    "C68_stress",
    "C68_elasticity",
    "C68_machine",
    "C68_curves"
   ],
   "note": ""
  },
  {
   "property": "C69",
   "status": "proved",
   "theorems": [
    "C69_stress",
    "C69_elasticity",
    "C69_machine",
    "C69_curves"
   ],
   "note": ""
  },
  {
   "property": "C70",
   "status": "proved",
   "theorems": [
    "C70_stress",
    "C70_elasticity",
    "C70_curves",
    "C70_machine",
    "C70_float64",
    "C70_ogden_stress",
    "C70_generalized_stress",
    "C70_ogden_elasticity",
    "C70_generalized_elasticity",
    "C70_stretch_curves",
    "C70_stretch_machine"
   ],
   "note": ""
  },
  {
   "property": "C71",
   "status": "proved",
   "theorems": [
    "C71_first_and_last",
    "C71_one_entry",
    "C71_empty",
    "C71_no_gradient",
    "C71_framework_x",
    "C71_space_x",
    "C71_state_passed",
    "C71_hessian_one",
    "C71_one_point",
    "C71_initial",
    "C71_initial_stress_free"
   ],
   "note": ""
  },
  {
   "property": "C72",
   "status": "proved",
   "theorems": [
    "C72_alone",
    "C72_every_schedule",
    "C72_own_objects",
    "C72_same_question",
    "C72_lock",
    "C72_lock_progress",
    "C72_shared_space_refuted",
    "C72_shared_framework_refuted"
   ],
   "note": ""
  },
  {
   "property": "C73",
   "status": "proved",
   "theorems": [
    "C73_third_order_deformation",
    "C73_ogden",
    "C73_fit",
    "C73_same_residuals",
    "C73_initial_values",
    "C73_recovers",
    "C73_normal_equations",
    "C73_one_parameter",
    "C73_units_parameters",
    "C73_units",
    "C73_repeated",
    "C73_linear_materials",
    "C73_generalized",
    "C73_measures"
   ],
   "note": "trusted about scipy: that the parameters it returns are a local minimiser (scipy_local) of the size of the initial ones (scipy_shapes)."
  },
  {
   "property": "C74",
   "status": "proved",
   "theorems": [
    "C74_commutes",
    "C74_commutes_undeformed",
    "C74_simple_shear",
    "C74_shear_energy",
    "C74_invariants",
    "C74_third_order_deformation"
   ],
   "note": ""
  },
  {
   "property": "C75",
   "status": "proved",
   "theorems": [
    "C75_stress",
    "C75_tangent",
    "C75_curves",
    "C75_invariants",
    "C75_third_order_deformation",
    "C75_generalized",
    "C75_ogden",
    "C75_ogden_order",
    "C75_ogden_merge",
    "C75_W33_refuted"
   ],
   "note": ""
  },
  {
   "property": "C76",
   "status": "proved",
   "theorems": [
    "C76_newton",
    "C76_third_order_deformation",
    "C76_third_order_isochoric",
    "C76_neo_hooke",
    "C76_ogden",
    "C76_generalized",
    "C76_library_point",
    "C76_library"
   ],
   "note": ""
  },
  {
   "property": "C77",
   "status": "proved",
   "theorems": [
    "C77_residual",
    "C77_stationary",
    "C77_symmetric",
    "C77_stable",
    "C77_necessary",
    "C77_isolated",
    "C77_descent",
    "C77_library_energy",
    "C77_library_symmetric",
    "C77_library"
   ],
   "note": ""
  },
  {
   "property": "C78",
   "status": "proved",
   "theorems": [
    "C78_new_load",
    "C78_load_path",
    "C78_library",
    "C78_library_path"
   ],
   "note": ""
  },
  {
   "property": "C79",
   "status": "proved",
   "theorems": [
    "C79_forces_balanced",
    "C79_moments_balanced",
    "C79_rotated_body",
    "C79_rigid_modes",
    "C79_free_body"
   ],
   "note": ""
  },
  {
   "property": "C80",
   "status": "proved",
   "theorems": [
    "C80_inexact",
    "C80_modified_newton",
    "C80_library",
    "C80_floating_point",
    "C80_iterations_exist"
   ],
   "note": ""
  },
  {
   "property": "C81",
   "status": "proved",
   "theorems": [
    "C81_gradient",
    "C81_hessian",
    "C81_local",
    "C81_local_hessian",
    "C81_third_order_raises",
    "C81_third_order_parameters",
    "C81_ogden_accepts"
   ],
   "note": ""
  }
 ]
}