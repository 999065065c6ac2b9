{
 "claims": [
  {
   "property": "C01",
   "status": "proved",
   "theorems": [
    "C01_mode_layout",
    "C01_wrong_length_rejected"
   ],
   "note": "Any mpol, ntor; both layouts; every other length rejected."
  },
  {
   "property": "C02",
   "status": "proved",
   "theorems": [
    "C02_surface_derivatives"
   ],
   "note": "All orders, all real angles."
  },
  {
   "property": "C03",
   "status": "proved",
   "theorems": [
    "C03_surface_periods"
   ],
   "note": "All derivative orders; nfp > 0."
  },
  {
   "property": "C04",
   "status": "proved",
   "theorems": [
    "C04_stellarator_symmetry"
   ],
   "note": ""
  },
  {
   "property": "C05",
   "status": "proved",
   "theorems": [
    "C05_frame"
   ],
   "note": ""
  },
  {
   "property": "C06",
   "status": "proved",
   "theorems": [
    "C06_geometry_derivatives"
   ],
   "note": ""
  },
  {
   "property": "C07",
   "status": "proved",
   "theorems": [
    "C07_one_period"
   ],
   "note": "At least two toroidal points per period (with a single point the code's dphi is not the spacing)."
  },
  {
   "property": "C08",
   "status": "partial",
   "theorems": [
    "C08_params_roundtrip",
    "C08_finite_element_refuted",
    "C08_finite_element_always_raises",
    "C08_surface_roundtrip"
   ],
   "note": "REFUTED for the finite-element parameter class, whose flattening reads attributes that are never set and always raises (C08_finite_element_refuted, C08_finite_element_always_raises). Proved for the surface and the Fourier parameter object (C08_surface\u2026, C08_params_roundtrip)."
  },
  {
   "property": "C09",
   "status": "partial",
   "theorems": [
    "C09_desc_general_refuted",
    "C09_desc_general_always_wrong",
    "C09_desc_circle_refuted",
    "C09_desc_symmetric_partial"
   ],
   "note": "REFUTED for every general surface (table cut at a quarter of the vector) and for mpol=ntor=0; proved for the other symmetric surfaces.  DESC's ptolemy_identity_fwd/rev themselves are not modelled."
  },
  {
   "property": "C10",
   "status": "proved",
   "theorems": [
    "C10_potential_modes"
   ],
   "note": ""
  },
  {
   "property": "C11",
   "status": "proved",
   "theorems": [
    "C11_potential_derivatives"
   ],
   "note": ""
  },
  {
   "property": "C12",
   "status": "proved",
   "theorems": [
    "C12_potential_symmetry"
   ],
   "note": ""
  },
  {
   "property": "C13",
   "status": "proved",
   "theorems": [
    "C13_net_currents"
   ],
   "note": ""
  },
  {
   "property": "C14",
   "status": "proved",
   "theorems": [
    "C14_current_structure"
   ],
   "note": ""
  },
  {
   "property": "C15",
   "status": "proved",
   "theorems": [
    "C15_superposition",
    "C15_affine"
   ],
   "note": "Joint linearity in (coefficients, G, I, plasma field) and affinity in the coefficients."
  },
  {
   "property": "C16",
   "status": "proved",
   "theorems": [
    "C16_current_derivatives"
   ],
   "note": ""
  },
  {
   "property": "C17",
   "status": "partial",
   "theorems": [
    "C17_K_theta_symmetric_partial",
    "C17_K_theta_general_refuted",
    "C17_K_theta_general_always_raises"
   ],
   "note": "REFUTED for non-symmetric parameter objects: K_theta raises a shape TypeError for every input (C17_K_theta_general_always_raises). Proved for symmetric ones."
  },
  {
   "property": "C18",
   "status": "proved",
   "theorems": [
    "C18_figures_of_merit_convex"
   ],
   "note": "Never raises, non-negative, convex, local minima are global, on increasing quadrature angles."
  },
  {
   "property": "C19",
   "status": "proved",
   "theorems": [
    "C19_rotation",
    "C19_field_periods"
   ],
   "note": "Rotation of the Biot-Savart sum for arbitrary point sets; field-period rotation for equispaced full-turn winding grids."
  },
  {
   "property": "C20",
   "status": "proved",
   "theorems": [
    "C20_smooth_max",
    "C20_smooth_abs",
    "C20_smooth_linf"
   ],
   "note": "Any non-empty list, any eps>0."
  },
  {
   "property": "C21",
   "status": "partial",
   "theorems": [
    "C21_cylindrical_isometry_refuted",
    "C21_cylindrical_isometry_partial",
    "C21_cylindrical_length_partial"
   ],
   "note": "REFUTED off the plane z=0 (the radial unit vector is divided by the 3-D norm); isometry proved for z=0 and the exact length factor proved everywhere."
  },
  {
   "property": "C22",
   "status": "proved",
   "theorems": [
    "C22_linear_solve_adjoint",
    "C22_nonfinite_ignored"
   ],
   "note": "Any solver that solves solvable systems; derivative families over R."
  },
  {
   "property": "C23",
   "status": "proved",
   "theorems": [
    "C23_linf_feasible",
    "C23_linf_slack_exact",
    "C23_linf4_feasible",
    "C23_linf4_slack_exact"
   ],
   "note": "Plain, squared and fourth-power variants."
  },
  {
   "property": "C24",
   "status": "proved",
   "theorems": [
    "C24_l1_slack_exact"
   ],
   "note": "Fields with one value per grid point; vector fields are C71."
  },
  {
   "property": "C25",
   "status": "partial",
   "theorems": [
    "C25_initial_slack_refuted",
    "C25_squared_characterised_partial",
    "C25_linf_initial_partial",
    "C25_linf4_initial_partial",
    "C25_l1_initial_partial"
   ],
   "note": "REFUTED for the squared variant (f_max_Phi2, f_max_force2_cyl): exact characterisation proved; plain, fourth-power and L1 variants proved."
  },
  {
   "property": "C26",
   "status": "partial",
   "theorems": [
    "C26_approx_squared_refuted",
    "C26_approx_fourth_refuted",
    "C26_linf_limit_partial",
    "C26_l1_limit_partial",
    "C26_huber_limit_partial",
    "C26_squared_limit_partial",
    "C26_fourth_limit_partial"
   ],
   "note": "REFUTED for the squared (limit raw/unit^2) and fourth-power (raw/unit^4) variants; plain L-infinity, L1 and Huber proved."
  },
  {
   "property": "C27",
   "status": "proved",
   "theorems": [
    "C27_smooth_quantity_any_mode",
    "C27_unknown_mode_rejected"
   ],
   "note": ""
  },
  {
   "property": "C28",
   "status": "proved",
   "theorems": [
    "C28_slack_names_distinct",
    "C28_failed_definition_leaves_registry"
   ],
   "note": "Any history of definitions."
  },
  {
   "property": "C29",
   "status": "proved",
   "theorems": [
    "C29_one_point_per_orbit",
    "C29_only_grid_points"
   ],
   "note": ""
  },
  {
   "property": "C30",
   "status": "proved",
   "theorems": [
    "C30_constraint_meaning",
    "C30_slack_constraint_meaning"
   ],
   "note": "Lists of constraints of any length; nonzero units; slack-type quantities through the exactness of C23/C24."
  },
  {
   "property": "C31",
   "status": "partial",
   "theorems": [
    "C31_auto_unit_refuted",
    "C31_auto_unit_partial",
    "C31_auto_unit_pointwise_partial"
   ],
   "note": "REFUTED for negative reference values; proved for positive ones, with a pointwise characterisation."
  },
  {
   "property": "C32",
   "status": "partial",
   "theorems": [
    "C32_approx_equality_refuted",
    "C32_approx_conservative_partial",
    "C32_approx_margin_partial"
   ],
   "note": "REFUTED for '=='; inequalities proved, with the sufficient margin."
  },
  {
   "property": "C33",
   "status": "proved",
   "theorems": [
    "C33_weighted_sum",
    "C33_scaled_value",
    "C33_single_name",
    "C33_mismatch_rejected"
   ],
   "note": ""
  },
  {
   "property": "C34",
   "status": "proved",
   "theorems": [
    "C34_constraints_accepted_iff",
    "C34_objectives_accepted_iff",
    "C34_rejection_class"
   ],
   "note": "Acceptance characterised by an equivalence."
  },
  {
   "property": "C35",
   "status": "proved",
   "theorems": [
    "C35_merge_keeps_every_constraint",
    "C35_merge_to_one_is_sound",
    "C35_merge_refused_without_approx"
   ],
   "note": ""
  },
  {
   "property": "C36",
   "status": "partial",
   "theorems": [
    "C36_mixed_units_refuted",
    "C36_equal_units_partial"
   ],
   "note": "REFUTED for units of different size; proved for units of equal size."
  },
  {
   "property": "C37",
   "status": "proved",
   "theorems": [
    "C37_inner_terminates"
   ],
   "note": "Any arithmetic (incl. NaN), any objective, any optimiser whose counter starts at 0 and increments."
  },
  {
   "property": "C38",
   "status": "proved",
   "theorems": [
    "C38_inner_exit_reason"
   ],
   "note": "Over the reals; states which quantity stopped the loop."
  },
  {
   "property": "C39",
   "status": "partial",
   "theorems": [
    "C39_mean_decrease_refuted",
    "C39_mean_decrease_partial"
   ],
   "note": "REFUTED for starting values below fstop or not positive; proved otherwise."
  },
  {
   "property": "C40",
   "status": "partial",
   "theorems": [
    "C40_reported_value_refuted",
    "C40_reported_value_constrained_partial",
    "C40_reported_value_unconstrained_partial"
   ],
   "note": "REFUTED for unconstrained runs (value one update old); proved for constrained runs."
  },
  {
   "property": "C41",
   "status": "proved",
   "theorems": [
    "C41_outer_terminates"
   ],
   "note": ""
  },
  {
   "property": "C42",
   "status": "proved",
   "theorems": [
    "C42_outer_exit_reason"
   ],
   "note": ""
  },
  {
   "property": "C43",
   "status": "partial",
   "theorems": [
    "C43_violation_bound_partial",
    "C43_final_tolerance_refuted"
   ],
   "note": "REFUTED: the last pass is not checked against ctol. Proved: if no inner update makes the subproblem larger, every violation after the last pass is bounded by the decrease of the objective, the multipliers and the tolerance (C43_violation_bound_partial)."
  },
  {
   "property": "C44",
   "status": "partial",
   "theorems": [
    "C44_multipliers_elu_refuted",
    "C44_multipliers_nonneg_partial"
   ],
   "note": "REFUTED for gplus_elu; proved for gplus_hard (default) and gplus_softplus."
  },
  {
   "property": "C45",
   "status": "proved",
   "theorems": [
    "C45_penalty_weight"
   ],
   "note": ""
  },
  {
   "property": "C46",
   "status": "proved",
   "theorems": [
    "C46_multiplier_update_gradient",
    "C46_fixed_point_kkt"
   ],
   "note": ""
  },
  {
   "property": "C47",
   "status": "proved",
   "theorems": [
    "C47_lower_bound"
   ],
   "note": ""
  },
  {
   "property": "C48",
   "status": "proved",
   "theorems": [
    "C48_rescaling_transparent",
    "C48_evaluated_at_the_unscaled_point"
   ],
   "note": ""
  },
  {
   "property": "C49",
   "status": "proved",
   "theorems": [
    "C49_validation",
    "C49_call_rejected"
   ],
   "note": "Full characterisation of the checks; errors are TypeError or ValueError; whole-call rejection needs nfp <> 0 (nfp = 0 divides by zero first)."
  },
  {
   "property": "C50",
   "status": "proved",
   "theorems": [
    "C50_gradient_keys"
   ],
   "note": ""
  },
  {
   "property": "C51",
   "status": "partial",
   "theorems": [
    "C51_value_only_partial",
    "C51_f_obj_refuted",
    "C51_f_obj_never"
   ],
   "note": "REFUTED for the metric f_obj, which is never present in value-only mode; all other metrics, the point and the solver results proved equal."
  },
  {
   "property": "C52",
   "status": "partial",
   "theorems": [
    "C52_options_partial",
    "C52_mask_has_no_effect",
    "C52_mask_refuted"
   ],
   "note": "REFUTED: gplus_mask never reaches the solver (concrete call whose answer would differ); every tolerance and iteration option proved to arrive."
  },
  {
   "property": "C53",
   "status": "proved",
   "theorems": [
    "C53_packing",
    "C53_slack_unscaled",
    "C53_unpack_injective"
   ],
   "note": "Includes injectivity of unpacking and independence of slacks from the scale."
  },
  {
   "property": "C54",
   "status": "proved",
   "theorems": [
    "C54_implicit_gradient"
   ],
   "note": "Families of complete calls of quadcoil over R; autodiff of the library exact at the point, linear solve successful."
  },
  {
   "property": "C55",
   "status": "partial",
   "theorems": [
    "C55_same_solution_partial",
    "C55_better_answer",
    "C55_cut_off_refuted"
   ],
   "note": "REFUTED when a positive singular value lies below the cut-off; proved when every singular value is 0 or above it. The choice of the better answer is unconditional."
  },
  {
   "property": "C56",
   "status": "partial",
   "theorems": [
    "C56_generated_partial",
    "C56_generated_unusable",
    "C56_symmetry_refuted"
   ],
   "note": "REFUTED when stellsym and plasma_stellsym differ: the surface is not usable and every field evaluation raises."
  },
  {
   "property": "C57",
   "status": "proved",
   "theorems": [
    "C57_least_squares",
    "C57_shapes"
   ],
   "note": "Optimality over all coefficient vectors, recovery with zero penalty, rejection of disagreeing shapes. The linear solver is a parameter that answers solvable square systems with a solution."
  },
  {
   "property": "C58",
   "status": "proved",
   "theorems": [
    "C58_intersection_exact"
   ],
   "note": "Exact for both the transversal and the parallel case."
  },
  {
   "property": "C59",
   "status": "partial",
   "theorems": [
    "C59_weights_partial",
    "C59_first_vertex_refuted"
   ],
   "note": "REFUTED for the first vertex: with an odd number of crossed edges it gets weight 0. Proved: 0/1 values, simple polygons keep every vertex, and every weight is the parity of the crossed edges before it."
  },
  {
   "property": "C60",
   "status": "partial",
   "theorems": [
    "C60_arc_angles_partial",
    "C60_increment_refuted"
   ],
   "note": "REFUTED for the increments: the step between two points is proportional to the length of the next edge. Proved: starts at 0, non-decreasing, below 1, exact value of every step."
  },
  {
   "property": "C61",
   "status": "partial",
   "theorems": [
    "C61_generators_partial",
    "C61_nonsymmetric_refuted"
   ],
   "note": "REFUTED for the atan generator: TypeError for every non-symmetric plasma with two or more toroidal points and default interpolation. Proved: exact condition for success of the atan generator; arc and offset always succeed with the legal number of coefficients."
  },
  {
   "property": "C62",
   "status": "proved",
   "theorems": [
    "C62_coils_conserve_current"
   ],
   "note": "Each period separately, the total, and each coil's equal share. The contour finder of matplotlib is a parameter and coils_via_symmetries of simsopt is modelled."
  },
  {
   "property": "C63",
   "status": "partial",
   "theorems": [
    "C63_coefficients_partial",
    "C63_too_few_samples",
    "C63_two_per_order_refuted"
   ],
   "note": "REFUTED at the end of the accepted range: with exactly two samples per order the highest cosine coefficient comes out doubled (C63_two_per_order_refuted). Exact recovery is proved for every order below half the number of samples, and the AssertionError below the range."
  },
  {
   "property": "C64",
   "status": "partial",
   "theorems": [
    "C64_header_partial",
    "C64_header_refuted"
   ],
   "note": "REFUTED: the header counts degrees of freedom and the body has one line per (m, n) in a rectangle, so they differ (C64_header_refuted). They agree exactly for stellarator-symmetric surfaces with mpol = 0 (C64_header_partial)."
  },
  {
   "property": "C65",
   "status": "partial",
   "theorems": [
    "C65_potential_partial",
    "C65_toroidal_current_refuted"
   ],
   "note": "REFUTED: the created object always gets toroidal current 0 (C65_toroidal_current_refuted). Everything else is passed on, and the toroidal current is right exactly when it is 0 (C65_potential_partial)."
  },
  {
   "property": "C66",
   "status": "proved",
   "theorems": [
    "C66_jvp_contracts_gradient",
    "C66_jvp_linear",
    "C66_jvp_returns"
   ],
   "note": "The derivative is returned for every call that is not verbose or that has constraints, with a weight the wrapper can use (C66_jvp_returns); the calls on which it raises are C99."
  },
  {
   "property": "C67",
   "status": "partial",
   "theorems": [
    "C67_desc_refuted",
    "C67_desc_with_names_partial",
    "C67_needs_desc"
   ],
   "note": "REFUTED: io/desc.py uses names that it neither defines nor imports, so with DESC installed every call raises NameError (C67_desc_refuted). With these names supplied, a call reaches the solver with the data of the equilibrium (C67_desc_with_names_partial); without DESC it raises (C67_needs_desc). The winding surface coefficients and the symmetry flag are not taken from the equilibrium although the docstring says the former are."
  },
  {
   "property": "C68",
   "status": "partial",
   "theorems": [
    "C68_equality_refuted",
    "C68_inequalities_partial"
   ],
   "note": "REFUTED for equalities: the code looks for '=' while the parser knows '==', so both spellings raise (C68_equality_refuted). For inequalities the plotted function is at most 0 only where the constraint holds, and where it holds with a margin of 1e-10 times the unit times the logarithm of the number of points (C68_inequalities_partial)."
  },
  {
   "property": "C69",
   "status": "partial",
   "theorems": [
    "C69_default_grid_partial",
    "C69_masked_integral_partial",
    "C69_legacy_integral",
    "C69_versions_agree",
    "C69_other_grid_refuted"
   ],
   "note": "REFUTED for evaluation grids other than the default one: the mask removes the pair with equal indices even when its two points differ (C69_other_grid_refuted). Proved on the default grid with pairwise distinct winding-surface points, for the integral with arbitrary arrays when the mask marks exactly the coinciding pairs, and without restriction for the legacy integral; the two versions agree on the default grid."
  },
  {
   "property": "C70",
   "status": "proved",
   "theorems": [
    "C70_scaling",
    "C70_field_error_zero",
    "C70_normalised_error_zero"
   ],
   "note": ""
  },
  {
   "property": "C71",
   "status": "partial",
   "theorems": [
    "C71_l1_slack_vector_refuted",
    "C71_l1_slack_vector_partial"
   ],
   "note": "REFUTED: the slack objective raises on vector fields."
  },
  {
   "property": "C72",
   "status": "partial",
   "theorems": [
    "C72_huber_almost_even_partial",
    "C72_huber_even_and_least_at_zero_refuted"
   ],
   "note": "REFUTED: the smoothed form adds eps^2 inside the norm, so it is neither even nor least at zero for any eps, unit (C72_huber_even_and_least_at_zero_refuted). Proved: both hold up to a gap of second order in eps (C72_huber_almost_even_partial); the limit as eps goes to 0 is C26_huber_limit_partial."
  },
  {
   "property": "C73",
   "status": "proved",
   "theorems": [
    "C73_current_modes"
   ],
   "note": ""
  },
  {
   "property": "C74",
   "status": "proved",
   "theorems": [
    "C74_field_of_position"
   ],
   "note": ""
  },
  {
   "property": "C75",
   "status": "proved",
   "theorems": [
    "C75_size_scaling"
   ],
   "note": ""
  },
  {
   "property": "C76",
   "status": "proved",
   "theorems": [
    "C76_current_field_symmetry"
   ],
   "note": ""
  },
  {
   "property": "C77",
   "status": "partial",
   "theorems": [
    "C77_output_keys_partial",
    "C77_extra_key_refuted"
   ],
   "note": "REFUTED: verbose unconstrained calls add hess_cond, value-only drops f_obj; exact key set proved."
  },
  {
   "property": "C78",
   "status": "partial",
   "theorems": [
    "C78_frozen_multipliers_partial",
    "C78_active_constraint_refuted"
   ],
   "note": "REFUTED for active constraints (multipliers are frozen: 1/3 instead of 1); proved when the result is a stationary point of the Lagrangian with frozen multipliers."
  },
  {
   "property": "C79",
   "status": "partial",
   "theorems": [
    "C79_weights_unseen",
    "C79_objective_gradient_refuted"
   ],
   "note": "REFUTED: the metric does not see the weights (0 instead of 1)."
  },
  {
   "property": "C80",
   "status": "proved",
   "theorems": [
    "C80_feasible"
   ],
   "note": "Quantities whose value is their field or whose slack form is exact (no approx smoothing, merge off)."
  },
  {
   "property": "C81",
   "status": "partial",
   "theorems": [
    "C81_default_unit_partial",
    "C81_zero_unit_loses",
    "C81_zero_unit_refuted"
   ],
   "note": "REFUTED for surfaces of equal minor radius; the exact value of the default unit proved."
  },
  {
   "property": "C82",
   "status": "partial",
   "theorems": [
    "C82_hull_partial",
    "C82_hull_refuted"
   ],
   "note": "REFUTED: a lowest point is dropped when another point has the same height (unit square). Proved: every other strict corner is kept (C82_hull_partial)."
  },
  {
   "property": "C83",
   "status": "partial",
   "theorems": [
    "C83_rules_partial",
    "C83_hull_refuted"
   ],
   "note": "REFUTED: the rule hull raises for every input. Proved: no rule but self-intersection produces a surface."
  },
  {
   "property": "C84",
   "status": "partial",
   "theorems": [
    "C84_smoothing_refuted"
   ],
   "note": "REFUTED: a given lam_tikhonov raises for every input."
  },
  {
   "property": "C85",
   "status": "proved",
   "theorems": [
    "C85_size"
   ],
   "note": "All three generators."
  },
  {
   "property": "C86",
   "status": "proved",
   "theorems": [
    "C86_offset_exact"
   ],
   "note": "Covers the recovery of the toroidal angle by arctan2 on all branches."
  },
  {
   "property": "C87",
   "status": "partial",
   "theorems": [
    "C87_frame_refuted"
   ],
   "note": "REFUTED: the integrands are projected on the frame of the source point and the current on the frame of the evaluation point, and the components are contracted and summed as if the frames were the same. On a circular torus with poloidal current the radial component is wrong (C87_frame_refuted)."
  },
  {
   "property": "C88",
   "status": "proved",
   "theorems": [
    "C88_force_orthogonal_to_current"
   ],
   "note": ""
  },
  {
   "property": "C89",
   "status": "proved",
   "theorems": [
    "C89_force_quadratic"
   ],
   "note": ""
  },
  {
   "property": "C90",
   "status": "proved",
   "theorems": [
    "C90_coils_on_winding_surface"
   ],
   "note": "For any contour finder."
  },
  {
   "property": "C91",
   "status": "proved",
   "theorems": [
    "C91_levels",
    "C91_half_and_mirror",
    "C91_whole_shift",
    "C91_symmetric_shift",
    "C91_no_coils"
   ],
   "note": "Stated through the levels the contour finder receives."
  },
  {
   "property": "C92",
   "status": "proved",
   "theorems": [
    "C92_contours_of_the_potential"
   ],
   "note": "Stated through the exact arguments the contour finder receives."
  },
  {
   "property": "C93",
   "status": "partial",
   "theorems": [
    "C93_coil_current_partial",
    "C93_coil_current_refuted"
   ],
   "note": "REFUTED: the current is the net current divided by the number of contours found, so a level with two contours halves it (C93_coil_current_refuted). It is right exactly when every level has one contour on average, i.e. n contours with symmetry and 2n without (C93_coil_current_partial)."
  },
  {
   "property": "C94",
   "status": "partial",
   "theorems": [
    "C94_file_current_partial",
    "C94_file_current_refuted"
   ],
   "note": "REFUTED for stellarator-symmetric problems: the file holds only the half-period coils, so it carries half the net current (C94_file_current_refuted). Right without symmetry (C94_file_current_partial)."
  },
  {
   "property": "C95",
   "status": "partial",
   "theorems": [
    "C95_curves_through_points_partial",
    "C95_even_number_of_points",
    "C95_curves_through_points_refuted"
   ],
   "note": "REFUTED: the default order is half the number of points, and for an even number of points the curve misses them unless their alternating sum vanishes (C95_even_number_of_points, C95_curves_through_points_refuted). True for the shortest contours with an odd number of points (C95_curves_through_points_partial)."
  },
  {
   "property": "C96",
   "status": "proved",
   "theorems": [
    "C96_focus_file_describes_surface",
    "C96_focus_file_from_simsopt"
   ],
   "note": "For both accepted surface classes, at all angles."
  },
  {
   "property": "C97",
   "status": "partial",
   "theorems": [
    "C97_jax_and_simsopt_accepted_partial",
    "C97_desc_surface_refuted"
   ],
   "note": "REFUTED: the DESC branch keeps a JAX surface, which has no get_rc, and raises AttributeError (C97_desc_surface_refuted). The two other classes work and other objects are rejected (C97_jax_and_simsopt_accepted_partial)."
  },
  {
   "property": "C98",
   "status": "proved",
   "theorems": [
    "C98_simsopt_round_trip",
    "C98_simsopt_round_trip_back"
   ],
   "note": "Both directions. Coefficients that are no degree of freedom (n < 0 at m = 0, and the (0,0) sine terms) are not carried."
  },
  {
   "property": "C99",
   "status": "partial",
   "theorems": [
    "C99_usable_partial",
    "C99_verbose_refuted",
    "C99_weight_refuted",
    "C99_f_obj_refuted"
   ],
   "note": "REFUTED in three ways: verbose output of an unconstrained problem raises TypeError (C99_verbose_refuted); a single objective with an array of weights raises KeyError (C99_weight_refuted); with metric f_obj evaluation and differentiation return different sets of values (C99_f_obj_refuted). Proved outside these cases (C99_usable_partial)."
  },
  {
   "property": "C100",
   "status": "partial",
   "theorems": [
    "C100_points",
    "C100_scalar_field",
    "C100_vector_field_partial",
    "C100_vector_field_refuted",
    "C100_file_name"
   ],
   "note": "REFUTED for gamma_and_field_to_vtk on surfaces with different resolutions: the dimensions are swapped, so points are connected across grid lines (C100_vector_field_refuted). Proved for the two other functions, and for square grids and the pairing of points with values here (C100_vector_field_partial)."
  },
  {
   "property": "C101",
   "status": "partial",
   "theorems": [
    "C101_load_refuted"
   ],
   "note": "REFUTED: the function uses a name that is not imported and always raises NameError (C101_load_refuted)."
  },
  {
   "property": "C102",
   "status": "proved",
   "theorems": [
    "C102_kwargs_ignored",
    "C102_values_are_the_solver",
    "C102_value_only_rejected"
   ],
   "note": ""
  },
  {
   "property": "C103",
   "status": "proved",
   "theorems": [
    "C103_scaling"
   ],
   "note": ""
  },
  {
   "property": "C104",
   "status": "partial",
   "theorems": [
    "C104_values",
    "C104_axes_partial",
    "C104_axes_refuted"
   ],
   "note": "REFUTED at the zero state: both axes collapse to the single value 0 (C104_axes_refuted). The values plotted are those of the quantity at the states on the axes (C104_values), and the axes are distinct and span the range when both coefficients and ranges are not 0 (C104_axes_partial)."
  },
  {
   "property": "C105",
   "status": "partial",
   "theorems": [
    "C105_documented_names_refuted",
    "C105_missing_names",
    "C105_documented_uses_partial",
    "C105_no_other_names"
   ],
   "note": "REFUTED: two names of the documented list do not exist: f_max_Bnormal_abs (docs/quantity.rst 79; the package has f_max_Bnormal) and Phi_abs (docs/quantity.rst 162); get_quantity raises ValueError for both. Proved for all other documented names: accepted as objective exactly if documented as a number, always accepted with '<='; and nothing outside the documented list and eight more names is accepted."
  },
  {
   "property": "C106",
   "status": "partial",
   "theorems": [
    "C106_documented_shapes_partial",
    "C106_K_theta_shape_refuted"
   ],
   "note": "REFUTED for K_theta without stellarator symmetry, which raises TypeError (current.py 76-81, see C17). Proved for every other quantity of the package and for K_theta with stellarator symmetry."
  },
  {
   "property": "C107",
   "status": "partial",
   "theorems": [
    "C107_units_partial",
    "C107_units_off",
    "C107_rescaled_exists",
    "C107_K_theta_unit_refuted"
   ],
   "note": "REFUTED for four quantities. K_theta returns the derivative of the potential, a current, but its unit is that of K (current per length): the ratio grows like c. _force_desc_unit (force.py 517) is B*K*a^2, a force, but the quantity is a force per area: the ratios shrink like 1/c^2 (f_max_force_cyl, f_l1_force_cyl) and 1/c^4 (f_max_force2_cyl). Proved for all other 23 quantities, with the exact deviation of the four."
  },
  {
   "property": "C108",
   "status": "partial",
   "theorems": [
    "C108_automatic_unit_refuted",
    "C108_potential_units_vanish",
    "C108_current_units_partial",
    "C108_field_units"
   ],
   "note": "REFUTED: the quantities of the single-valued potential (Phi, Phi2, f_max_Phi, f_max_Phi2, f_max_Phi4, f_l1_Phi, f_Phi) vanish at zero coefficients, so their automatic unit is always 0 and the scaled quantity is a division by zero. Proved positive for f_max_K2, f_K and f_huber_K whenever a net current flows; for f_B, f_max_Bnormal and f_max_Bnormal2 it is positive exactly if the net currents leave a normal field on the plasma grid."
  },
  {
   "property": "C109",
   "status": "proved",
   "theorems": [
    "C109_largest_values",
    "C109_integrals",
    "C109_squares",
    "C109_current_strength",
    "C109_normalised_error",
    "C109_total_potential"
   ],
   "note": ""
  },
  {
   "property": "C110",
   "status": "partial",
   "theorems": [
    "C110_array_call_refuted",
    "C110_dictionary_call_partial"
   ],
   "note": "REFUTED: the call shown in docs/quantity.rst 26-37, K_theta(qp, phi_mn) with the coefficient array, indexes the array by 'phi' (quantity.py 207) and raises TypeError. Proved for the dictionary form, where slack entries are ignored."
  },
  {
   "property": "C111",
   "status": "proved",
   "theorems": [
    "C111_affine_quantities",
    "C111_convex_quantities",
    "C111_normalised_error_convex",
    "C111_local_minimum_is_global"
   ],
   "note": "The convex fields are the ones listed; curvature, force and lower bounds on convex quantities are not claimed."
  },
  {
   "property": "C112",
   "status": "partial",
   "theorems": [
    "C112_several_objectives_refuted",
    "C112_default_unit_refuted",
    "C112_options_refuted",
    "C112_figure_partial"
   ],
   "note": "REFUTED: a tuple of objectives or an objective unit of None, both accepted by quadcoil, raise in plot_quadcoil; equality constraints raise (C68); the extra keyword arguments, such as ngrid, are dropped. Proved for one scalar objective with a numerical unit and inequality constraints on smooth quantities."
  },
  {
   "property": "C113",
   "status": "proved",
   "theorems": [
    "C113_quantities_scale",
    "C113_designs_scale",
    "C113_other_units_exist"
   ],
   "note": "Stated of the quantities and of the optimisation problem, not of the iterates of the solver. K_theta needs a stellarator-symmetric problem, as everywhere."
  },
  {
   "property": "C114",
   "status": "proved",
   "theorems": [
    "C114_smooth_problem_is_the_users",
    "C114_same_optimum"
   ],
   "note": "Units are numbers given by the user; repeated uses of one slack quantity must have units of the same modulus (otherwise C36). f_huber_K (smoothed in slack mode, C26) and f_l1_force_cyl (its slack form raises, C71) are outside."
  },
  {
   "property": "C115",
   "status": "proved",
   "theorems": [
    "C115_only_the_potential_matters",
    "C115_finer_contains",
    "C115_designs_carry_over",
    "C115_finer_is_no_worse"
   ],
   "note": "Values of all 27 quantities depend on the potential only; the coarse coefficient space embeds in the finer one; feasibility, objective value and optimality follow."
  },
  {
   "property": "C116",
   "status": "proved",
   "theorems": [
    "C116_mirror_image",
    "C116_symmetric_design_no_worse",
    "C116_symmetric_optimum_is_optimum",
    "C116_one_sided_bounds"
   ],
   "note": "Mirror image of every design of a symmetric problem, no loss by restricting to sine terms, optimality carries over; a witness shows why bounds on Phi must come in pairs. Bounds on K components and K_theta are outside (Cartesian components rotate between periods; K_theta raises for stellsym=False)."
  },
  {
   "property": "C117",
   "status": "proved",
   "theorems": [
    "C117_imported_surface",
    "C117_wrong_sizes_rejected_late"
   ],
   "note": "The tables are what DESC's ptolemy_identity_rev returns, one entry per mode in the order of make_rzfourier_mc_ms_nc_ns, as the comment in the code states; DESC itself is not modelled."
  },
  {
   "property": "C118",
   "status": "proved",
   "theorems": [
    "C118_near_optimal"
   ],
   "note": "Proved for every inner optimiser whose updates have the shape of the unknown; the quality of the inner optimiser (optax L-BFGS, not modelled) is the parameter eps."
  },
  {
   "property": "C119",
   "status": "proved",
   "theorems": [
    "C119_certificate"
   ],
   "note": "Proved for every inner optimiser whose updates have the shape of the unknown; the stationarity of the inner optimiser (optax L-BFGS, not modelled) is the parameter eta."
  },
  {
   "property": "C120",
   "status": "proved",
   "theorems": [
    "C120_near_optimal_design",
    "C120_near_optimal_unconstrained"
   ],
   "note": "Proved for the quantities of the package in slack mode with merge off; the quality of the inner optimiser (optax L-BFGS, not modelled) is the parameter eps."
  },
  {
   "property": "C121",
   "status": "proved",
   "theorems": [
    "C121_valid_calls_return"
   ],
   "note": "Proved for slack mode and merge off. f_max_Bnormal_abs and Phi_abs do not exist (C105) and K_theta raises without stellarator symmetry (C106), so they are excluded; the unit of Phi must be non-zero. f_obj is covered by C79."
  },
  {
   "property": "C122",
   "status": "proved",
   "theorems": [
    "C122_default_points"
   ],
   "note": "Proved; added after a mutant (default points covering the whole torus) survived every earlier theorem."
  },
  {
   "property": "C123",
   "status": "proved",
   "theorems": [
    "C123_best_design_exists",
    "C123_excess",
    "C123_growth"
   ],
   "note": "existence for the quadratic figures without constraints; growth for all convex problems"
  },
  {
   "property": "C124",
   "status": "partial",
   "theorems": [
    "C124_unique_partial",
    "C124_unique_up_to_constant",
    "C124_constant_is_free",
    "C124_unique_refuted"
   ],
   "note": "REFUTED for stellsym=False without f_Phi (the constant mode is a free unknown); proved for resolving evaluation grids with f_Phi weighted, or f_K weighted and stellsym=True; up to a constant otherwise"
  },
  {
   "property": "C125",
   "status": "partial",
   "theorems": [
    "C125_budget_partial",
    "C125_reasons",
    "C125_total_refuted",
    "C125_overrun"
   ],
   "note": "REFUTED for constrained calls: the last-stage run always follows the main loop, so a call whose main loop uses up maxiter_tot exceeds it (C125_total_refuted, C125_overrun). C125_budget_partial gives the true bounds (maxiter_tot without constraints, maxiter_tot-1+2*maxiter_inner with), C125_reasons that nothing but the declared criteria ends a call."
  },
  {
   "property": "C126",
   "status": "proved",
   "theorems": [
    "C126_one_best_design",
    "C126_nearly_best_is_near"
   ],
   "note": "Extends C123 and C124 to any convex terms and constraints; no compactness or choice axiom."
  },
  {
   "property": "C127",
   "status": "proved",
   "theorems": [
    "C127_raising_a_weight",
    "C127_constraints_cost",
    "C127_weight_as_bound",
    "C127_bound_as_weight"
   ],
   "note": "Stated on the designs that are best for the problem as written (SpecBest.best); C114 and C120 say how the problem handed to the optimiser and the returned design relate to it."
  },
  {
   "property": "C128",
   "status": "proved",
   "theorems": [
    "C128_integrals_converge",
    "C128_maxima_converge",
    "C128_field_error_converges"
   ],
   "note": "The integral is Coquelicot RInt, iterated (toroidal outside). f_B is integrated over one period, as the code does; that the plasma and winding periods agree is not needed."
  },
  {
   "property": "C129",
   "status": "proved",
   "theorems": [
    "C129_field_converges",
    "C129_normal_field_converges"
   ],
   "note": "Convergence at fixed plasma grid points off the winding surface. Rates of convergence are not stated."
  },
  {
   "property": "C130",
   "status": "proved",
   "theorems": [
    "C130_objective_converges",
    "C130_best_designs_converge"
   ],
   "note": "Unconstrained problems; the quadrature grid of the winding surface inside the Biot-Savart sum is kept fixed (its refinement is C129). No rate of convergence is stated."
  },
  {
   "property": "C131",
   "status": "proved",
   "theorems": [
    "C131_best_designs_superpose",
    "C131_only_one",
    "C131_proportional"
   ],
   "note": "All stated parts are theorems: combination is best, is the only best, and the proportional case with the objective value."
  },
  {
   "property": "C132",
   "status": "partial",
   "theorems": [
    "C132_objective",
    "C132_lagrangian",
    "C132_last_function_partial",
    "C132_stationary_refuted"
   ],
   "note": "REFUTED: the multipliers used in the gradient stage are those after the update that follows the last optimiser run, so the function differentiated is not the one minimised and the reported design need not be stationary for it; proved: identification of the function with the objective / augmented Lagrangian of the problem at the given inputs, and equality with the minimised function when the last pass changed neither multipliers nor penalty"
  },
  {
   "property": "C133",
   "status": "proved",
   "theorems": [
    "C133_small_gradient_near_best"
   ],
   "note": ""
  },
  {
   "property": "C134",
   "status": "proved",
   "theorems": [
    "C134_every_surface_has_fewer_periods",
    "C134_every_potential_remains",
    "C134_same_figures",
    "C134_same_fields"
   ],
   "note": ""
  },
  {
   "property": "C135",
   "status": "proved",
   "theorems": [
    "C135_periodic_design_no_worse",
    "C135_periodic_optimum_is_optimum"
   ],
   "note": ""
  },
  {
   "property": "C136",
   "status": "proved",
   "theorems": [
    "C136_no_net_flux",
    "C136_grid_flux_vanishes",
    "C136_error_floor"
   ],
   "note": ""
  },
  {
   "property": "C137",
   "status": "proved",
   "theorems": [
    "C137_file_holds_closed_loops",
    "C137_saving_is_transparent"
   ],
   "note": ""
  },
  {
   "property": "C138",
   "status": "proved",
   "theorems": [
    "C138_axisymmetric_design_no_worse",
    "C138_best_design_is_axisymmetric"
   ],
   "note": ""
  },
  {
   "property": "C139",
   "status": "proved",
   "theorems": [
    "C139_peak_current_floor",
    "C139_bound_below_floor_is_infeasible",
    "C139_power_floor"
   ],
   "note": ""
  },
  {
   "property": "C140",
   "status": "proved",
   "theorems": [
    "C140_peaks_bound_integrals",
    "C140_squares_bound_absolute_values",
    "C140_peaks_agree"
   ],
   "note": ""
  },
  {
   "property": "C141",
   "status": "proved",
   "theorems": [
    "C141_field_bounded_by_current",
    "C141_change_of_normal_field",
    "C141_current_needed",
    "C141_density_needed"
   ],
   "note": ""
  },
  {
   "property": "C142",
   "status": "proved",
   "theorems": [
    "C142_coil_quantities_ignore_the_target",
    "C142_designs_move_no_more_than_the_target",
    "C142_unknowns_move_continuously"
   ],
   "note": ""
  },
  {
   "property": "C143",
   "status": "proved",
   "theorems": [
    "C143_figures_do_not_depend_on_the_origin",
    "C143_vectors_turn_with_the_machine",
    "C143_best_designs_move_along",
    "C143_machines_can_be_moved"
   ],
   "note": ""
  },
  {
   "property": "C144",
   "status": "proved",
   "theorems": [
    "C144_price_of_changed_bounds",
    "C144_constraints_without_price",
    "C144_gain_between_the_prices"
   ],
   "note": "Proved for every inner optimiser whose updates have the shape of the unknown; the stationarity of the inner optimiser (optax L-BFGS, not modelled) is the parameter eta."
  },
  {
   "property": "C145",
   "status": "proved",
   "theorems": [
    "C145_mirror_images_have_the_same_figures",
    "C145_mirror_images_have_mirrored_fields",
    "C145_best_designs_are_mirrored",
    "C145_mirror_images_exist",
    "C145_whole_turns_mirror_themselves"
   ],
   "note": ""
  },
  {
   "property": "C146",
   "status": "proved",
   "theorems": [
    "C146_same_best_designs",
    "C146_same_optimum_handed",
    "C146_common_factor"
   ],
   "note": ""
  },
  {
   "property": "C147",
   "status": "proved",
   "theorems": [
    "C147_multipliers_certify_the_design"
   ],
   "note": ""
  },
  {
   "property": "C148",
   "status": "proved",
   "theorems": [
    "C148_smoothed_problem_is_conservative",
    "C148_margin_suffices",
    "C148_loss_of_smoothing",
    "C148_smoothing_vanishes"
   ],
   "note": ""
  },
  {
   "property": "C149",
   "status": "proved",
   "theorems": [
    "C149_near_optimal_design",
    "C149_near_optimal_unconstrained",
    "C149_valid_calls_return"
   ],
   "note": ""
  },
  {
   "property": "C150",
   "status": "proved",
   "theorems": [
    "C150_default_grids",
    "C150_whole_machine"
   ],
   "note": ""
  },
  {
   "property": "C151",
   "status": "proved",
   "theorems": [
    "C151_slope_between_weights",
    "C151_no_better_on_both",
    "C151_ends_of_the_scan",
    "C151_concave_in_the_weights",
    "C151_convex_in_the_bounds"
   ],
   "note": ""
  },
  {
   "property": "C152",
   "status": "proved",
   "theorems": [
    "C152_device_of_the_call",
    "C152_same_device"
   ],
   "note": ""
  },
  {
   "property": "C153",
   "status": "proved",
   "theorems": [
    "C153_prices_of_the_bounds"
   ],
   "note": ""
  },
  {
   "property": "C154",
   "status": "proved",
   "theorems": [
    "C154_same_design",
    "C154_fewer_metrics",
    "C154_same_end"
   ],
   "note": ""
  },
  {
   "property": "C155",
   "status": "proved",
   "theorems": [
    "C155_reported_objective"
   ],
   "note": ""
  },
  {
   "property": "C156",
   "status": "proved",
   "theorems": [
    "C156_multipliers_certify_bounded_currents",
    "C156_rows_of_a_density_bound",
    "C156_density_bound"
   ],
   "note": ""
  },
  {
   "property": "C157",
   "status": "proved",
   "theorems": [
    "C157_prices_of_the_bounds",
    "C157_price_of_a_density_bound"
   ],
   "note": ""
  },
  {
   "property": "C158",
   "status": "proved",
   "theorems": [
    "C158_met_density_bound"
   ],
   "note": ""
  },
  {
   "property": "C159",
   "status": "proved",
   "theorems": [
    "C159_violations_add_up",
    "C159_reported_violation",
    "C159_passes_outside_the_tolerance"
   ],
   "note": ""
  },
  {
   "property": "C160",
   "status": "proved",
   "theorems": [
    "C160_small_rows_mean_nearly_met_bounds"
   ],
   "note": ""
  },
  {
   "property": "C161",
   "status": "proved",
   "theorems": [
    "C161_returned_designs_nearly_meet_the_bounds"
   ],
   "note": ""
  },
  {
   "property": "C162",
   "status": "proved",
   "theorems": [
    "C162_coordinates_convert_back",
    "C162_quadratic_form_becomes_round"
   ],
   "note": ""
  },
  {
   "property": "C163",
   "status": "proved",
   "theorems": [
    "C163_normalised_difference"
   ],
   "note": ""
  }
 ]
}