STATUS = {
 "C08": ("proved", "LAPACK enters as an oracle whose result is only assumed to satisfy eig_legal at the given matrix."),
 "C12": ("partial", "gradient proved; hessian proved for models whose dW/dI3 is None or 0; C12_hessian_refuted proves that the full hessian claim is false of the code (index list [2,0,1] used as values); C12_hessian_error gives the exact error for every model."),
 "C15": ("partial", "proved for models that return no d2WdI3dI3 (this includes every ThirdOrderDeformation model); C15_hessian_refuted and C15_hessian_error prove that, and how, the code is wrong otherwise (lines 225-226 add the (2,2) term)."),
 "C16": ("partial", "exact characterisation of the None patterns for which hessian returns; the unconditional claim is refuted (C16_hessian_refuted: UnboundLocalError)."),
 "C17": ("proved", "Invariants: any model; Stretches: any exchangeable model, whatever eigenbasis LAPACK returns; the property speaks about the gradient, the hessian is covered as well."),
 "C19": ("partial", "proved for principal stretches that coincide or whose squares differ by more than np.isclose's absolute tolerance 1e-8; C19_hessian_refuted proves the claim false of the code inside the tolerance; C19_hessian_error says exactly which components are wrong there, C19_ogden_error_partial bounds the error of Ogden (by 1e-8 times a factor)."),
 "C22": ("partial", "GeneralizedInvariantsModel uses the old state; Invariants and Stretches pass the updated state to material.hessian (C22_old_state_refuted); holds for models that do not change their state."),

 "C31": ("partial", "proved where the material tangent is zero or above the absolute tolerance of np.allclose; C31_tangent_refuted proves the claim false of the code for small material tangents; C31_error_partial bounds the error there by 1e-8 times a factor that depends on F only."),
 "C33": ("partial", "pressure form proved; for every energy C33_actual_stress says what the stress is instead; stress and tangent proved for energies linear in C; C33_refuted proves both claims false of the code for psi=(I1-3)^2 (line 22 uses I3^(1/3) C instead of I3^(1/3) 1)."),
 "C40": ("proved", "numpy arrays; C40_python_lists: Python lists (documented as array_like) raise TypeError."),
 "C41": ("proved", "scipy.optimize.curve_fit is an oracle; that it returns a minimiser is a hypothesis of C41_minimises only."),
 "C42": ("partial", "proved for float arrays and lists; C42_integers_refuted: integer arrays are truncated; C42_tuples: tuples raise."),
 "C43": ("proved", "C43_all_or_nothing covers every exception, not only those of the optimiser."),
 "C34": ("partial", "models, frameworks, all stresses and the tangents of Deformation and Dilatational proved; Distortional tangent proved above the np.allclose tolerance and refuted below it."),
 "C45": ("partial", "all math functions; all library models in all spaces; user models that act pointwise; non-scalar operands have the same number of trailing axes here (operands with different numbers of axes: C66); Distortional.hessian only for batches whose entries agree on the np.allclose test: C45_batch_coupling_refuted proves that otherwise the entry of the batch differs from the entry alone."),
 "C46": ("partial", "exact characterisation for ThirdOrderDeformation (…_raises: blocked configurations raise ValueError, all others return); all configurations for Ogden and GeneralizedInvariantsModel(ThirdOrderDeformation); C46_refuted: the unrestricted claim is false (Neo-Hooke with force=0)."),
 "C47": ("proved", "numpy's copy/view rules as modelled in NDCore.v/NDVoigt.v; user models are assumed not to write into the caller's arrays themselves."),
 "C48": ("partial", "whenever gradient/hessian return they are right (all energies built from + - * / ** exp log sqrt); exact conditions under which gradient and hessian raise (C48_gradient_raises, C48_hessian_raises); the unrestricted claim is refuted: gradient raises for every energy with an operation on two invariants (retain_graph=False), hessian raises for energies linear in an invariant and for nested saved operations; inside Invariants the hessian raises UnboundLocalError for every energy that mentions I3 and not I2 (C48_framework_hessian_raises)."),
 "C49": ("partial", "proved for every splitting that is free of races (in particular along the trailing axes) or gathers results before writing, every thread count and schedule; C49_row_split_refuted: if threads split the rows of a call whose out= is an operand and write into it directly, some schedules give a wrong stress. Which splitting einsumt chooses is not decided by the repository (its source is not available here). Sums are over R, so the rounding of reordered sums is not covered."),
 "C50": ("partial", "C50_force_displacement_refuted: Simulation.plot_force_displacement raises AttributeError for every Simulation; everything else in the claim is proved. Pixels and number formatting are not modelled."),
 "C51": ("partial", "proved for Deformation and Distortional with every shipped model (also across coinciding stretches) and for the lab's curves; C51_dilatational_refuted: the stress of the Dilatational space for psi=(I1-3)^2 is not the gradient of any energy function, so the claim is false of the code there."),
 "C52": ("proved", "one-dimensional arrays and numbers; C52_shape_refuted: a (2,1) array of stretches (not documented as allowed) silently gives a (2,2) array that mixes the stress of one stretch with the deformation of another."),
 "C53": ("proved", "standard model of floating point (no overflow, no subnormals); C53_float64 proves with Flocq that round-to-nearest-even with 53 bits is an instance."),
 "C54": ("proved", "standard model of floating point (no overflow, no subnormals)."),
 "C55": ("proved", "standard model of floating point (no overflow, no subnormals); u also bounds the error of pow and sqrt. K and u0 depend on F and the parameters."),
 "C67": ("partial", "proved for Deformation, Distortional (elasticity tensor: where np.allclose does not drop the material tangent, C31), Invariants (hessian: without d2WdI3dI3, which the code never gets right, C15/C16), the gradients of GeneralizedInvariants and Stretches, and a corrected formula for Stretches.hessian; the printed formula for Stretches.hessian is refuted (C67_stretches_hessian_refuted). The printed second derivatives of GeneralizedInvariants contain misprints and are covered by C12 instead."),
 "C57": ("partial", "stress: proved in full; tangent: proved in Deformation and Dilatational, and in Distortional where the material's tangent is zero or above the tolerance of np.allclose (always for Neo-Hooke), since below it the code drops that tangent; C57_tangent_refuted proves the unrestricted tangent claim false of the code (a rotation moves the largest component across the tolerance)."),
 "C58": ("proved", "C58_negative_parameter_refuted and C58_ogden_exponent_refuted show that the conditions on signs and exponents are needed."),
 "C59": ("proved", "trusted about scipy: that the parameters it returns are a local minimiser (scipy_local) of the size of the initial ones."),
 "C73": ("proved", "trusted about scipy: that the parameters it returns are a local minimiser (scipy_local) of the size of the initial ones (scipy_shapes)."),
 "C60": ("proved", "C60_negative_parameter_refuted: with a negative C20 the order of the principal stresses can be wrong."),
}
