{
 "claims": [
  {
   "property": "C01",
   "status": "proved",
   "theorems": [
    "C01_ad_exact",
    "C01_ad_exact_single",
    "C01_plain_run",
    "C01_div_by_zero_raises",
    "C01_power_at_zero",
    "C01_power_outside"
   ],
   "note": ""
  },
  {
   "property": "C02",
   "status": "partial",
   "theorems": [
    "C02_zero_over_zero_limit_partial",
    "C02_zero_over_zero_deriv_refuted"
   ],
   "note": "FINDING: at 0/0 DualNumber.__truediv__ returns the correct limit as value (proved) but sets the derivative to 0, which is wrong in general (witness x^2/x at 0: derivative 1). The derivative half of the property is refuted for the code."
  },
  {
   "property": "C03",
   "status": "proved",
   "theorems": [
    "C03_add_comm",
    "C03_add_assoc",
    "C03_mul_comm",
    "C03_mul_assoc",
    "C03_distrib",
    "C03_sub_is_add_neg",
    "C03_neg_neg",
    "C03_add_neg",
    "C03_div_mul",
    "C03_pow2",
    "C03_lift_add",
    "C03_lift_sub",
    "C03_lift_mul",
    "C03_lift_div",
    "C03_comparison",
    "C03_equality"
   ],
   "note": ""
  },
  {
   "property": "C04",
   "status": "proved",
   "theorems": [
    "C04_jacobian",
    "C04_diff_g_bad_wrt",
    "C04_diff_g_bad_arity",
    "C04_jacobian_bad_wrt",
    "C04_kerr_defined",
    "C04_kn_defined",
    "C04_sch_defined"
   ],
   "note": ""
  },
  {
   "property": "C05",
   "status": "proved",
   "theorems": [
    "C05_kerrnewman_inverse",
    "C05_kerr_inverse",
    "C05_schwarzschild_inverse",
    "C05_kn_without_charge_is_kerr",
    "C05_kerr_without_spin_is_schwarzschild"
   ],
   "note": ""
  },
  {
   "property": "C06",
   "status": "proved",
   "theorems": [
    "C06_P_kerrnewman",
    "C06_P_kerr",
    "C06_P_schwarzschild",
    "C06_P_block_metric",
    "C06_P_fails_iff"
   ],
   "note": ""
  },
  {
   "property": "C07",
   "status": "partial",
   "theorems": [
    "C07_P_residual_partial",
    "C07_P_user_metric_refuted"
   ],
   "note": "FINDING: _P uses only g00, g03 and the diagonal; for a user metric with other off-diagonal entries the returned momentum is off shell by exactly the ignored cross terms (proved), so the property as stated is refuted with a witness."
  },
  {
   "property": "C08",
   "status": "proved",
   "theorems": [
    "C08_mixed_sums",
    "C08_mixed_rotates_differences",
    "C08_mixed_norm",
    "C08_mixed_group",
    "C08_mixed_zero",
    "C08_mixed_inverse",
    "C08_mixed_hamilton"
   ],
   "note": ""
  },
  {
   "property": "C09",
   "status": "proved",
   "theorems": [
    "C09_flow_A",
    "C09_flow_B",
    "C09_energy_A",
    "C09_energy_B",
    "C09_builtin_metrics_qualify"
   ],
   "note": ""
  },
  {
   "property": "C10",
   "status": "proved",
   "theorems": [
    "C10_reversible"
   ],
   "note": ""
  },
  {
   "property": "C11",
   "status": "proved",
   "theorems": [
    "C11_cyclic_momentum_all_steps",
    "C11_cyclic_momentum_one_step",
    "C11_independent_is_cyclic",
    "C11_builtin_stationary_axisymmetric"
   ],
   "note": ""
  },
  {
   "property": "C12",
   "status": "proved",
   "theorems": [
    "C12_order_is_composition",
    "C12_weights_sum_to_one",
    "C12_jump_sum",
    "C12_jump_cancels_leading_error",
    "C12_order4_cubic"
   ],
   "note": ""
  },
  {
   "property": "C13",
   "status": "partial",
   "theorems": [
    "C13_orders_6_8_cubic_refuted",
    "C13_local_order_3_refuted",
    "C13_correct_nesting_would_cancel"
   ],
   "note": "FINDING: _ord_6 and _ord_8 call _ord_4/_ord_6 whose inner weights use _Z(self.order), so the third-order error does not cancel; refuted for both orders. On the explicit inverse metric diag(-1, x, 1, 1) a step of order 6 or 8 is proved not to be third-order accurate (C13_local_order_3_refuted), so both are exactly second order there. Correct nesting is proved to cancel."
  },
  {
   "property": "C14",
   "status": "partial",
   "theorems": [
    "C14_history",
    "C14_suppress_only_warnings",
    "C14_suppressed_never_warns",
    "C14_warning_iff",
    "C14_history_warnings_as_errors_refuted"
   ],
   "note": "History, counter, warning condition and suppression proved for every number of steps; with warnings turned into errors the history invariant fails (finding, refuted): step_num and the state advance but results does not."
  },
  {
   "property": "C15",
   "status": "partial",
   "theorems": [
    "C15_trajectory",
    "C15_rows_are_iterates",
    "C15_steps_complete",
    "C15_modes_agree",
    "C15_geodesic",
    "C15_defaults",
    "C15_unknown_metric",
    "C15_unknown_order",
    "C15_unknown_order_exception",
    "C15_zero_steps_refuted",
    "C15_named_metric",
    "C15_timelike",
    "C15_nulllike",
    "C15_cartesian"
   ],
   "note": "All clauses proved for steps >= 1; for steps = 0 the code raises IndexError instead of returning an empty trajectory (finding)."
  },
  {
   "property": "C16",
   "status": "proved",
   "theorems": [
    "C16_history",
    "C16_quadrature",
    "C16_antiderivative",
    "C16_linear_systems",
    "C16_exponential"
   ],
   "note": ""
  },
  {
   "property": "C17",
   "status": "partial",
   "theorems": [
    "C17_t_bound_refuted",
    "C17_never_stops",
    "C17_overshoots"
   ],
   "note": "FINDING: RK4naive computes direction = 1*(t_bound >= t0) - 1*(not t_bound < t0), which is 0 for every input, so the stop test never fires: refuted; what the code does instead (never refuses a step, passes any bound) is proved."
  },
  {
   "property": "C18",
   "status": "proved",
   "theorems": [
    "C18_finished_solver",
    "C18_never_runtime_error",
    "C18_escapes_only_rhs",
    "C18_warns_iff",
    "C18_defaults"
   ],
   "note": ""
  },
  {
   "property": "C19",
   "status": "proved",
   "theorems": [
    "C19_cart_sph_cart"
   ],
   "note": ""
  },
  {
   "property": "C20",
   "status": "proved",
   "theorems": [
    "C20_sph_cart_sph"
   ],
   "note": ""
  },
  {
   "property": "C21",
   "status": "proved",
   "theorems": [
    "C21_cart_sph_velocity",
    "C21_sph_cart_velocity",
    "C21_round_trip_sph",
    "C21_round_trip_cart"
   ],
   "note": ""
  },
  {
   "property": "C22",
   "status": "proved",
   "theorems": [
    "C22_cart_bl_cart",
    "C22_bl_cart_bl",
    "C22_defined_off_disc",
    "C22_oblate_ellipsoid"
   ],
   "note": ""
  },
  {
   "property": "C23",
   "status": "proved",
   "theorems": [
    "C23_bl_cart_velocity",
    "C23_cart_bl_velocity",
    "C23_round_trip_cart",
    "C23_round_trip_bl"
   ],
   "note": ""
  },
  {
   "property": "C24",
   "status": "partial",
   "theorems": [
    "C24_bl_vphi_refuted",
    "C24_available_iff",
    "C24_x0"
   ],
   "note": "FINDING: cartesian_to_bl computes v_phi through y/x, so it is not finite on the whole plane x = 0 although v_phi exists there; refuted, and availability is characterised exactly (x <> 0)."
  },
  {
   "property": "C25",
   "status": "proved",
   "theorems": [
    "C25_zero_spin_pos",
    "C25_zero_spin_pos_inv",
    "C25_zero_spin_vel",
    "C25_zero_spin_vel_inv"
   ],
   "note": ""
  },
  {
   "property": "C26",
   "status": "proved",
   "theorems": [
    "C26_values",
    "C26_length",
    "C26_missing_kwargs",
    "C26_invalid_spin",
    "C26_positions",
    "C26_velocities"
   ],
   "note": ""
  },
  {
   "property": "C27",
   "status": "proved",
   "theorems": [
    "C27_position",
    "C27_velocity",
    "C27_rescale",
    "C27_arguments",
    "C27_differential_arguments",
    "C27_position_value",
    "C27_differential_position_value",
    "C27_conversion",
    "C27_differential_conversion",
    "C27_object_round_trip",
    "C27_object_round_trip_bl"
   ],
   "note": ""
  },
  {
   "property": "C28",
   "status": "partial",
   "theorems": [
    "C28_radius_units_refuted",
    "C28_radius_correct_iff",
    "C28_si_units_same"
   ],
   "note": "FINDING: schwarzschild_radius and alpha read M.value, not M.si.value, so 1 tonne and 1000 kg give different radii: refuted; proved right exactly when the unit is SI (or the value is 0)."
  },
  {
   "property": "C29",
   "status": "proved",
   "theorems": [
    "C29_normalised",
    "C29_defined_iff",
    "C29_future",
    "C29_velocity",
    "C29_velocity_value",
    "C29_mismatch",
    "C29_frame",
    "C29_history"
   ],
   "note": ""
  },
  {
   "property": "C30",
   "status": "proved",
   "theorems": [
    "C30_int",
    "C30_int_out",
    "C30_name",
    "C30_system",
    "C30_documented",
    "C30_unknown"
   ],
   "note": ""
  },
  {
   "property": "C31",
   "status": "proved",
   "theorems": [
    "C31_lorentz",
    "C31_superluminal",
    "C31_speed_only"
   ],
   "note": ""
  },
  {
   "property": "C32",
   "status": "proved",
   "theorems": [
    "C32_alpha_error_iff",
    "C32_alpha_value",
    "C32_sigma_rho_delta",
    "C32_helpers_invalid"
   ],
   "note": ""
  },
  {
   "property": "C33",
   "status": "proved",
   "theorems": [
    "C33_kerr_singularities",
    "C33_kerr_metric_finite_iff",
    "C33_schwarzschild",
    "C33_coordinate_error_iff"
   ],
   "note": ""
  },
  {
   "property": "C34",
   "status": "proved",
   "theorems": [
    "C34_connection",
    "C34_defined_iff",
    "C34_wrong_system"
   ],
   "note": ""
  },
  {
   "property": "C35",
   "status": "partial",
   "theorems": [
    "C35_kerr_dgdx_refuted",
    "C35_kerr_dgdx_exact"
   ],
   "note": "FINDING: Kerr's tabulated d g_33/d r has the wrong sign of its spin term; every other entry is proved to be the derivative and the error of [1,3,3] is given in closed form."
  },
  {
   "property": "C36",
   "status": "proved",
   "theorems": [
    "C36_kn_dgdx_gradient",
    "C36_gradient_is_partials",
    "C36_kn_connection"
   ],
   "note": ""
  },
  {
   "property": "C37",
   "status": "partial",
   "theorems": [
    "C37_kn_metric_refuted",
    "C37_charged_always_wrong",
    "C37_charge_error",
    "C37_charge_ignored",
    "C37_uncharged_textbook",
    "C37_finite_at_reported_horizon"
   ],
   "note": "FINDING: KerrNewman.metric_covariant never uses Q (delta is called without it): refuted; the array is proved to be the uncharged Kerr metric, wrong for every Q<>0 and finite at the reported horizons."
  },
  {
   "property": "C38",
   "status": "proved",
   "theorems": [
    "C38_sparse_complete",
    "C38_list_exact",
    "C38_list_sound",
    "C38_kerr_blocks",
    "C38_kn_blocks"
   ],
   "note": ""
  },
  {
   "property": "C39",
   "status": "proved",
   "theorems": [
    "C39_schwarzschild",
    "C39_kerr",
    "C39_kerr_newman",
    "C39_kerr_newman_uncharged",
    "C39_wrong_system"
   ],
   "note": ""
  },
  {
   "property": "C40",
   "status": "partial",
   "theorems": [
    "C40_schwarzschild",
    "C40_kerr_newman",
    "C40_kerr_drift",
    "C40_kerr_refuted"
   ],
   "note": "Norm conservation proved for Schwarzschild and for Kerr-Newman with q=0; FINDING: refuted for the Kerr class because of the wrong derivative entry of C35; exact drift proved."
  },
  {
   "property": "C41",
   "status": "partial",
   "theorems": [
    "C41_antisymmetric",
    "C41_contra_antisymmetric",
    "C41_exterior_derivative_exact",
    "C41_exterior_derivative_partial",
    "C41_exterior_derivative_refuted",
    "C41_gradient_unique"
   ],
   "note": "Antisymmetry (covariant and contravariant) and the electric components proved; FINDING: F_13 and F_23 have the opposite sign of the exterior derivative, refuted whenever spin and charge are non-zero, true otherwise."
  },
  {
   "property": "C42",
   "status": "partial",
   "theorems": [
    "C42_drift",
    "C42_lorentz_refuted",
    "C42_textbook_force_orthogonal"
   ],
   "note": "FINDING: f_vec computes (F_contra @ v) @ g instead of F_contra @ (g @ v), so the electromagnetic term does work on the norm: refuted; exact drift proved and the textbook contraction proved to preserve the norm."
  },
  {
   "property": "C43",
   "status": "proved",
   "theorems": [
    "C43_perturbation",
    "C43_inverse_iff",
    "C43_error",
    "C43_symmetric",
    "C43_contra_symmetric",
    "C43_kerr_defined_iff"
   ],
   "note": ""
  },
  {
   "property": "C44",
   "status": "proved",
   "theorems": [
    "C44_christoffel",
    "C44_singular",
    "C44_covariant_metric",
    "C44_contravariant_metric",
    "C44_metric_pair",
    "C44_contravariant_nonvacuous",
    "C44_laws_nonvacuous",
    "C44_metric_nonvacuous",
    "C44_metric_nonflat"
   ],
   "note": ""
  },
  {
   "property": "C45",
   "status": "proved",
   "theorems": [
    "C45_riemann_formula",
    "C45_riemann_symmetries",
    "C45_second_bianchi"
   ],
   "note": ""
  },
  {
   "property": "C46",
   "status": "proved",
   "theorems": [
    "C46_ricci_scalar",
    "C46_constructors_agree"
   ],
   "note": ""
  },
  {
   "property": "C47",
   "status": "proved",
   "theorems": [
    "C47_einstein"
   ],
   "note": ""
  },
  {
   "property": "C48",
   "status": "proved",
   "theorems": [
    "C48_stress_energy"
   ],
   "note": "Sign of the Lambda term is the code's (G - Lambda g); the property states the code's convention, the usual field equations have G + Lambda g."
  },
  {
   "property": "C49",
   "status": "proved",
   "theorems": [
    "C49_weyl",
    "C49_weyl_dim3",
    "C49_weyl_low"
   ],
   "note": ""
  },
  {
   "property": "C50",
   "status": "proved",
   "theorems": [
    "C50_schouten",
    "C50_schouten_low"
   ],
   "note": ""
  },
  {
   "property": "C51",
   "status": "proved",
   "theorems": [
    "C51_change_config",
    "C51_one_slot",
    "C51_compose",
    "C51_round_trip",
    "C51_bad_config",
    "C51_no_metric",
    "C51_checker",
    "C51_nonvacuous"
   ],
   "note": ""
  },
  {
   "property": "C52",
   "status": "proved",
   "theorems": [
    "C52_outer",
    "C52_contract",
    "C52_range"
   ],
   "note": ""
  },
  {
   "property": "C53",
   "status": "partial",
   "theorems": [
    "C53_one_index",
    "C53_one_index_refuted"
   ],
   "note": "FINDING: tensor_product tests `(i or j) is None`, so i=0 with j omitted silently returns the outer product (refuted); any other missing index raises TypeError (proved)."
  },
  {
   "property": "C54",
   "status": "proved",
   "theorems": [
    "C54_lorentz",
    "C54_metric_preserved",
    "C54_inverse_metric_preserved",
    "C54_identity",
    "C54_nonvacuous"
   ],
   "note": ""
  },
  {
   "property": "C55",
   "status": "partial",
   "theorems": [
    "C55_contraction",
    "C55_invariant_iff",
    "C55_contraction_refuted"
   ],
   "note": "FINDING: lorentz_transform acts on lower indices with the matrix itself (transposed), not with its inverse; contraction is invariant exactly when the matrix is an involution (proved for every dimension), refuted for the boost of velocity 3/5."
  },
  {
   "property": "C56",
   "status": "partial",
   "theorems": [
    "C56_inv",
    "C56_same_object",
    "C56_inv_inv",
    "C56_inv_inv_value",
    "C56_inv_inv_object_refuted",
    "C56_lower",
    "C56_change_config",
    "C56_objects_persist",
    "C56_singular",
    "C56_mixed_lower_refuted",
    "C56_nonvacuous"
   ],
   "note": "Proved for every history of calls on metrics created as ll or uu: inverse, cached object, values, lower_config. Findings: for an object produced by change_config whose source already has a cached inverse, inv().inv() is an equal but different object (refuted); for a metric created as ul, lower_config can return an object labelled ul (refuted)."
  },
  {
   "property": "C57",
   "status": "proved",
   "theorems": [
    "C57_tensor",
    "C57_errors",
    "C57_base",
    "C57_subclasses",
    "C57_subclasses_bad"
   ],
   "note": ""
  },
  {
   "property": "C58",
   "status": "partial",
   "theorems": [
    "C58_subs",
    "C58_config_refuted"
   ],
   "note": "FINDING: subs rebuilds Tensor(...) with the default config 'll': rank 2 loses its configuration, other ranks raise ValueError."
  },
  {
   "property": "C59",
   "status": "partial",
   "theorems": [
    "C59_reciprocal",
    "C59_two",
    "C59_symmetric",
    "C59_one",
    "C59_inverse_refuted"
   ],
   "note": "FINDING: TransformationMatrix.inv() is 1/self entrywise, not the matrix inverse; refuted, and proved never to be the inverse for 2x2 or symmetric matrices without zero entries."
  },
  {
   "property": "C60",
   "status": "proved",
   "theorems": [
    "C60_flatten",
    "C60_each_index_once",
    "C60_count",
    "C60_position",
    "C60_simplify"
   ],
   "note": ""
  },
  {
   "property": "C61",
   "status": "proved",
   "theorems": [
    "C61_entries",
    "C61_minkowski_flat",
    "C61_minkowski_polar_flat",
    "C61_ads_static_einstein",
    "C61_ads_einstein"
   ],
   "note": "Every chart point and every value of c; also the cosmological AntiDeSitter slicing. Curvature is what the library's own constructors return, for any correct simplify/inverse oracle."
  },
  {
   "property": "C62",
   "status": "proved",
   "theorems": [
    "C62_schwarzschild_vacuum"
   ],
   "note": ""
  },
  {
   "property": "C63",
   "status": "partial",
   "theorems": [
    "C63_coded",
    "C63_documented",
    "C63_de_sitter_refuted"
   ],
   "note": "FINDING: DeSitter uses t = coords[1] (the x coordinate) in the scale factor; its Ricci tensor is computed exactly and is no multiple of g (refuted); the documented line element is proved to satisfy Ricci = 3/alpha^2 g."
  },
  {
   "property": "C64",
   "status": "partial",
   "theorems": [
    "C64_kerr_newman_kerr",
    "C64_kerr_schwarzschild",
    "C64_rn_schwarzschild",
    "C64_kerr_newman_rn",
    "C64_symmetric",
    "C64_barriola_minkowski",
    "C64_ernst_schwarzschild",
    "C64_jnw_components",
    "C64_jnw_schwarzschild",
    "C64_jnw_refuted"
   ],
   "note": "FINDING: JanisNewmanWinicour lacks 1/c^2 in its angular part, so gamma=1 is Schwarzschild (up to signature) exactly when c^2=1 (refuted otherwise). All other specialisations proved."
  },
  {
   "property": "C65",
   "status": "partial",
   "theorems": [
    "C65_on_axis",
    "C65_exactly_where",
    "C65_metric",
    "C65_shape_function",
    "C65_one_at_the_ship",
    "C65_radius_refuted"
   ],
   "note": "FINDING: the bubble radius uses y and z instead of y^2 and z^2; proved equal to the Euclidean distance exactly where y+z = y^2+z^2, refuted in general."
  },
  {
   "property": "C66",
   "status": "proved",
   "theorems": [
    "C66_exact",
    "C66_order",
    "C66_nodup",
    "C66_case_insensitive",
    "C66_narrowing",
    "C66_all",
    "C66_only_constructors",
    "C66_finds_itself"
   ],
   "note": "dir() of einsteinpy.symbolic.predefined is a literal list in the model; the specification theorem holds for every list of names."
  },
  {
   "property": "C67",
   "status": "proved",
   "theorems": [
    "C67_division_exact",
    "C67_sharp",
    "C67_christoffel",
    "C67_riemann",
    "C67_weyl",
    "C67_christoffel_loop",
    "C67_riemann_loop"
   ],
   "note": "binary64 division modelled with Flocq (round to nearest even); proved for every dimension with d**3 (resp. d**4) <= 2**53, sharp beyond."
  },
  {
   "property": "C68",
   "status": "proved",
   "theorems": [
    "C68_derivative",
    "C68_derivative_dark_energy",
    "C68_hubble",
    "C68_unknown_era",
    "C68_defined_iff",
    "C68_unit_independent"
   ],
   "note": "np_pow models numpy's nan/inf as NonFinite; Cosmo_Const is an arbitrary value in s^-2."
  },
  {
   "property": "C69",
   "status": "partial",
   "theorems": [
    "C69_terminates",
    "C69_samples",
    "C69_range",
    "C69_small_mass_refuted",
    "C69_negative_alpha_diverges",
    "C69_surface_terminates",
    "C69_surface",
    "C69_undefined_after"
   ],
   "note": "FINDING: for masses with 6*M.value <= 0.0001 the only sample is r_init, beyond 9M (C69_small_mass_refuted). A negative alpha never returns. The 1-D Z of get_values_surface (Z.reshape result is dropped) is what C69_surface describes."
  },
  {
   "property": "C70",
   "status": "partial",
   "theorems": [
    "C70_radius",
    "C70_slope_value",
    "C70_radius_derivative",
    "C70_slope_factor",
    "C70_slope_sign",
    "C70_isometric_exists",
    "C70_isometric_iff",
    "C70_isometric_refuted"
   ],
   "note": "FINDING: the coded slope squared is R(r) times the isometric slope squared, so the embedding is isometric only where R = 1 (C70_isometric_refuted)."
  },
  {
   "property": "C71",
   "status": "proved",
   "theorems": [
    "C71_aligned",
    "C71_rays",
    "C71_raises",
    "C71_smoothen",
    "C71_smoothen_defined"
   ],
   "note": "newton is an arbitrary function of the ray; fixed_quad is its 5-point Gauss rule; interp1d's documented rejections only. smoothen raises ValueError whenever the critical ray itself is kept."
  },
  {
   "property": "C72",
   "status": "partial",
   "theorems": [
    "C72_horizon",
    "C72_ergosphere_value",
    "C72_true_ergosphere",
    "C72_drawn_iff",
    "C72_bounds",
    "C72_inside_horizon_iff",
    "C72_2D_refuted",
    "C72_3D_refuted"
   ],
   "note": "FINDING: the drawn ergosphere uses a instead of a**2, so it cuts inside the horizon wherever cos^2 theta > a (C72_2D_refuted), and in 3D uses the azimuth for the polar angle (C72_3D_refuted)."
  },
  {
   "property": "C73",
   "status": "proved",
   "theorems": [
    "C73_static_plot",
    "C73_interactive_plot",
    "C73_static_plot2D",
    "C73_interactive_plot2D",
    "C73_no_parameters",
    "C73_parametric",
    "C73_backend"
   ],
   "note": "The artists' data are modelled, styling is not. Coordinate indices are Python ints."
  },
  {
   "property": "C74",
   "status": "proved",
   "theorems": [
    "C74_pixel",
    "C74_escape_unique",
    "C74_range",
    "C74_one_iff",
    "C74_escape_sound",
    "C74_image",
    "C74_zero_iterations",
    "C74_slider"
   ],
   "note": "Exact complex arithmetic; iter_max >= 0."
  },
  {
   "property": "C75",
   "status": "proved",
   "theorems": [
    "C75_primitive"
   ],
   "note": "Arguments are quantities or other objects."
  },
  {
   "property": "C76",
   "status": "proved",
   "theorems": [
    "C76_message_keeps_arguments",
    "C76_message_equations",
    "C76_repr"
   ],
   "note": "Arguments are their str() forms; ASCII strings."
  },
  {
   "property": "C77",
   "status": "proved",
   "theorems": [
    "C77_defined_iff",
    "C77_state"
   ],
   "note": "Body.__post_init__ with astropy's unit checks."
  },
  {
   "property": "C78",
   "status": "proved",
   "theorems": [
    "C78_arguments",
    "C78_deterministic",
    "C78_explicit",
    "C78_given_variables",
    "C78_calls_correct",
    "C78_default_calls_correct"
   ],
   "note": "Symbols are numbers with names; sympy's free_symbols set is any duplicate-free list; lambdify's callable is evaluation of the expression."
  },
  {
   "property": "C79",
   "status": "proved",
   "theorems": [
    "C79_kerr_vacuum"
   ],
   "note": ""
  },
  {
   "property": "C80",
   "status": "proved",
   "theorems": [
    "C80_rn_ricci",
    "C80_rn_scalar",
    "C80_kn_ricci",
    "C80_kn_scalar",
    "C80_kn_rainich"
   ],
   "note": "Mixed Ricci components given explicitly; trace zero and algebraic Rainich condition (Ricci squared is a multiple of the identity) proved."
  },
  {
   "property": "C81",
   "status": "proved",
   "theorems": [
    "C81_barriola",
    "C81_bertotti_kasner",
    "C81_godel",
    "C81_davidson",
    "C81_cmetric",
    "C81_ernst_scalar",
    "C81_ernst_pairs"
   ],
   "note": "BesselGravitationalWave is not covered beyond symmetry: Bessel functions are not in the expression language."
  },
  {
   "property": "C82",
   "status": "partial",
   "theorems": [
    "C82_jnw_ricci",
    "C82_jnw_scalar_field",
    "C82_jnw_refuted"
   ],
   "note": "FINDING: Ricci_theta_theta = 1-c^2 because the angular part lacks 1/c^2; the property holds exactly when c^2=1."
  },
  {
   "property": "C83",
   "status": "proved",
   "theorems": [
    "C83_positive",
    "C83_quadrature_inside",
    "C83_red_value",
    "C83_blue_value",
    "C83_below_critical",
    "C83_beyond_turning"
   ],
   "note": "newton's accepted roots are assumed to be in [3M, fov) and at or outside the turning point (C84_safe shows exact roots are)."
  },
  {
   "property": "C84",
   "status": "partial",
   "theorems": [
    "C84_root_is_turning_point",
    "C84_turning_iff",
    "C84_turning_refuted",
    "C84_safe"
   ],
   "note": "FINDING: the root equation truncates the mass with int(), so the radius is the turning point exactly when the mass is a whole number of kg (C84_turning_iff, C84_turning_refuted)."
  },
  {
   "property": "C85",
   "status": "partial",
   "theorems": [
    "C85_accumulates",
    "C85_after_clear",
    "C85_failed_plot",
    "C85_failed_plot2D_refuted",
    "C85_static_last"
   ],
   "note": "FINDING: plot2D draws the black hole before validating the indices, so a rejected call still changes the figure (C85_failed_plot2D_refuted)."
  },
  {
   "property": "C86",
   "status": "partial",
   "theorems": [
    "C86_limits",
    "C86_margins",
    "C86_defined_iff",
    "C86_frames",
    "C86_last_point_refuted"
   ],
   "note": "FINDING: frames are numbered 0..N-1 and frame k shows k points, so the last trajectory point is never drawn (C86_last_point_refuted)."
  },
  {
   "property": "C87",
   "status": "proved",
   "theorems": [
    "C87_every_order_is_at_least_second",
    "C87_order_four_is_fourth",
    "C87_doubled_system"
   ],
   "note": ""
  },
  {
   "property": "C88",
   "status": "proved",
   "theorems": [
    "C88_symplectic",
    "C88_regular_everywhere"
   ],
   "note": ""
  },
  {
   "property": "C89",
   "status": "proved",
   "theorems": [
    "C89_global_convergence"
   ],
   "note": ""
  },
  {
   "property": "C90",
   "status": "partial",
   "theorems": [
    "C90_history",
    "C90_stress_energy_class",
    "C90_stress_energy_refuted",
    "C90_metric_histories",
    "C90_base_and_scalar",
    "C90_no_metric_raises",
    "C90_lorentz_forgets_metric",
    "C90_lorentz_never_fails",
    "C90_change_config_succeeds",
    "C90_defaults_fit",
    "C90_nonvacuous"
   ],
   "note": "FINDING: StressEnergyMomentumTensor.change_config returns an EinsteinTensor (C90_stress_energy_refuted); proved for every other class and every history."
  },
  {
   "property": "C91",
   "status": "proved",
   "theorems": [
    "C91_local_error",
    "C91_program_rhs",
    "C91_programs_are_smooth",
    "C91_solutions_are_smooth"
   ],
   "note": ""
  },
  {
   "property": "C92",
   "status": "proved",
   "theorems": [
    "C92_global_convergence",
    "C92_program_rhs"
   ],
   "note": ""
  },
  {
   "property": "C93",
   "status": "proved",
   "theorems": [
    "C93_exactly_constant_on_geodesics",
    "C93_mass_shell_drift"
   ],
   "note": ""
  },
  {
   "property": "C94",
   "status": "partial",
   "theorems": [
    "C94_published_metric_is_vacuum",
    "C94_code_ricci",
    "C94_code_ricci_terms",
    "C94_vacuum_refuted"
   ],
   "note": "FINDING: the file calls besselj(rho, 0) and besselj(rho, 1), i.e. with order and argument swapped (sympy's signature is besselj(nu, z)); the published metric with J_0(rho), J_1(rho) is proved Ricci-flat, the Ricci tensor of the coded one is computed and proved nonzero somewhere for every C <> 0."
  },
  {
   "property": "C95",
   "status": "partial",
   "theorems": [
    "C95_schwarzschild",
    "C95_kerr_newman_uncharged_particle",
    "C95_kerr_energy",
    "C95_kerr_rate",
    "C95_kerr_angular_momentum_refuted"
   ],
   "note": "FINDING: for Kerr the angular momentum is not conserved because of the wrong entry of C35 (exact rate of change proved); its energy, and both constants for Schwarzschild and KerrNewman, are proved conserved."
  },
  {
   "property": "C96",
   "status": "proved",
   "theorems": [
    "C96_rotate",
    "C96_mirror",
    "C96_rotate_any_metric",
    "C96_mirror_any_metric",
    "C96_trajectory_shift",
    "C96_t_phi_reversal",
    "C96_named_metrics_are_circular",
    "C96_momentum_reversal",
    "C96_trajectory_rotate",
    "C96_trajectory_mirror"
   ],
   "note": ""
  },
  {
   "property": "C97",
   "status": "proved",
   "theorems": [
    "C97_exact_constant",
    "C97_drift"
   ],
   "note": ""
  },
  {
   "property": "C98",
   "status": "proved",
   "theorems": [
    "C98_equatorial",
    "C98_equatorial_any_metric",
    "C98_radial",
    "C98_radial_any_metric",
    "C98_precession_example"
   ],
   "note": ""
  },
  {
   "property": "C99",
   "status": "proved",
   "theorems": [
    "C99_circular",
    "C99_schwarzschild",
    "C99_photon_sphere",
    "C99_radial_light",
    "C99_exact",
    "C99_built_in",
    "C99_schwarzschild_data"
   ],
   "note": ""
  },
  {
   "property": "C100",
   "status": "proved",
   "theorems": [
    "C100_metric",
    "C100_christoffels",
    "C100_equations_of_motion",
    "C100_equations_of_motion_back",
    "C100_singularities"
   ],
   "note": ""
  },
  {
   "property": "C101",
   "status": "partial",
   "theorems": [
    "C101_exact_difference",
    "C101_agree_iff",
    "C101_same_motion_refuted"
   ],
   "note": "FINDING: the metric arrays agree, but the accelerations differ by an explicit non-zero amount wherever the wrong [1,3,3] entry of Kerr's derivative array (C35) is wrong; they agree at a point for all velocities exactly where that error vanishes (e.g. without spin, on the axis)."
  },
  {
   "property": "C102",
   "status": "partial",
   "theorems": [
    "C102_entries",
    "C102_never_inverse",
    "C102_one_dimension",
    "C102_jacobian_refuted",
    "C102_rank",
    "C102_from_old2new"
   ],
   "note": "FINDING: from_new2old (symbolic/helpers.py:154-156) takes the entrywise reciprocal of the Jacobian instead of its matrix inverse. With two or more coordinates and no vanishing partial derivative the result is never the inverse Jacobian (the product has n on the diagonal); vanishing derivatives give zoo. It is right only in one dimension. from_old2new always raises NotImplementedError."
  },
  {
   "property": "C103",
   "status": "proved",
   "theorems": [
    "C103_christoffel",
    "C103_riemann",
    "C103_ricci",
    "C103_scalar",
    "C103_einstein",
    "C103_schouten",
    "C103_weyl",
    "C103_change_config",
    "C103_substitution",
    "C103_minkowski_polar",
    "C103_nonvacuous"
   ],
   "note": ""
  },
  {
   "property": "C104",
   "status": "proved",
   "theorems": [
    "C104_weyl",
    "C104_weyl_ulll",
    "C104_schouten",
    "C104_constant_factor",
    "C104_nonvacuous"
   ],
   "note": ""
  },
  {
   "property": "C105",
   "status": "partial",
   "theorems": [
    "C105_named",
    "C105_schwarzschild",
    "C105_kerr_newman",
    "C105_schwarzschild_trajectory",
    "C105_kerr_newman_trajectory",
    "C105_kerr_exact",
    "C105_kerr_refuted",
    "C105_circular_orbit"
   ],
   "note": "FINDING: Kerr.f_vec (wrong [1,3,3] entry of its derivative array, C35) does not follow the curves computed by Geodesic(metric='Kerr') unless kerr_err times the azimuthal velocity vanishes (proved iff; refuted on the circular orbit at r = 9, a = 3/5). Schwarzschild and KerrNewman are proved to agree."
  },
  {
   "property": "C106",
   "status": "proved",
   "theorems": [
    "C106_schwarzschild_rk4",
    "C106_kerr_newman_rk4",
    "C106_solvers_agree_schwarzschild",
    "C106_solvers_agree_kerr_newman"
   ],
   "note": ""
  },
  {
   "property": "C107",
   "status": "proved",
   "theorems": [
    "C107_geodesic",
    "C107_geodesic_unique",
    "C107_rk4",
    "C107_solution_unique",
    "C107_schwarzschild_motion",
    "C107_schwarzschild_motion_unique",
    "C107_kerr_newman_motion",
    "C107_kerr_newman_motion_unique"
   ],
   "note": ""
  },
  {
   "property": "C108",
   "status": "partial",
   "theorems": [
    "C108_schwarzschild_metric",
    "C108_kerr_metric",
    "C108_kerr_newman_metric",
    "C108_schwarzschild_christoffels",
    "C108_kerr_newman_christoffels",
    "C108_kerr_christoffels",
    "C108_kerr_christoffels_iff",
    "C108_kerr_christoffels_refuted",
    "C108_charge",
    "C108_charge_refuted",
    "C108_geodesic_schwarzschild",
    "C108_geodesic_kerr",
    "C108_geodesic_kerr_newman"
   ],
   "note": "FINDING: agreement holds for Schwarzschild, for every Kerr metric entry and for uncharged KerrNewman; the numeric Kerr Christoffel symbols differ from the symbolic ones (three independent entries) wherever kerr_err <> 0 (same defect as C35), and the numeric KerrNewman class ignores the charge that the symbolic metric and Geodesic's metric contain (C37). Exact differences are proved."
  },
  {
   "property": "C109",
   "status": "proved",
   "theorems": [
    "C109_named_black_holes",
    "C109_ieee",
    "C109_any_metric",
    "C109_trajectory",
    "C109_close_to_exact",
    "C109_trajectory_close",
    "C109_precision",
    "C109_exact_trajectory",
    "C109_exact_is_accurate",
    "C109_ieee_is_accurate",
    "C109_coarser"
   ],
   "note": ""
  },
  {
   "property": "C110",
   "status": "proved",
   "theorems": [
    "C110_program",
    "C110_dual",
    "C110_metric",
    "C110_jacobian",
    "C110_momentum",
    "C110_exact_program",
    "C110_exact_jacobian",
    "C110_exact_momentum",
    "C110_named"
   ],
   "note": ""
  },
  {
   "property": "C111",
   "status": "proved",
   "theorems": [
    "C111_rounded",
    "C111_close_to_exact",
    "C111_exact",
    "C111_length",
    "C111_ieee"
   ],
   "note": ""
  },
  {
   "property": "C112",
   "status": "proved",
   "theorems": [
    "C112_constants_of_motion",
    "C112_plane_of_motion",
    "C112_carter_exact",
    "C112_angular_momentum_exact",
    "C112_carter_drift",
    "C112_any_constant",
    "C112_any_constant_rounded"
   ],
   "note": ""
  },
  {
   "property": "C113",
   "status": "proved",
   "theorems": [
    "C113_cart_to_sph",
    "C113_cart_to_bl",
    "C113_cart_to_bl_vel",
    "C113_sph_to_cart",
    "C113_bl_to_cart",
    "C113_cart_sph_cart",
    "C113_cart_bl_cart",
    "C113_sph_cart_sph",
    "C113_bl_cart_bl",
    "C113_ieee",
    "C113_ieee_exists",
    "C113_exact",
    "C113_exact_to_sph",
    "C113_exact_to_sph_vel",
    "C113_exact_from_sph",
    "C113_exact_from_sph_vel",
    "C113_exact_to_bl",
    "C113_exact_to_bl_vel",
    "C113_exact_from_bl",
    "C113_exact_from_bl_vel"
   ],
   "note": ""
  },
  {
   "property": "C114",
   "status": "partial",
   "theorems": [
    "C114_axis_refuted",
    "C114_axis_exact",
    "C114_point_z",
    "C114_point_alpha"
   ],
   "note": "FINDING: refuted. On the rotation axis z / r can round to 1 + 2^-52, and np.arccos of it is nan: proved for x = y = 0, z = 0.2, alpha = 0.9 in binary64. In exact arithmetic the conversion is defined on the whole axis but the origin (proved). Clipping z / r to [-1, 1] would repair it. Off the axis C113 applies."
  },
  {
   "property": "C115",
   "status": "proved",
   "theorems": [
    "C115_sch_metric",
    "C115_sch_contra",
    "C115_sch_christoffels",
    "C115_sch_f_vec",
    "C115_kerr_metric",
    "C115_kerr_contra",
    "C115_kerr_christoffels",
    "C115_kerr_f_vec",
    "C115_kn_metric",
    "C115_kn_contra",
    "C115_kn_christoffels",
    "C115_kn_f_vec",
    "C115_em_covariant",
    "C115_em_contravariant",
    "C115_ieee",
    "C115_ieee_any",
    "C115_ieee_exists"
   ],
   "note": ""
  },
  {
   "property": "C116",
   "status": "proved",
   "theorems": [
    "C116_sch",
    "C116_kerr",
    "C116_kn"
   ],
   "note": ""
  },
  {
   "property": "C117",
   "status": "proved",
   "theorems": [
    "C117_kerr_motion",
    "C117_kerr_motion_unique",
    "C117_charged_motion",
    "C117_charged_motion_unique",
    "C117_kerr_rk4",
    "C117_charged_rk4"
   ],
   "note": ""
  },
  {
   "property": "C118",
   "status": "proved",
   "theorems": [
    "C118_schwarzschild",
    "C118_kerr",
    "C118_kerr_newman"
   ],
   "note": ""
  },
  {
   "property": "C119",
   "status": "proved",
   "theorems": [
    "C119_schwarzschild",
    "C119_kerr",
    "C119_kerr_newman"
   ],
   "note": ""
  },
  {
   "property": "C120",
   "status": "proved",
   "theorems": [
    "C120_schwarzschild",
    "C120_kerr_newman",
    "C120_kerr_energy"
   ],
   "note": ""
  },
  {
   "property": "C121",
   "status": "proved",
   "theorems": [
    "C121_schwarzschild",
    "C121_kerr",
    "C121_kerr_newman"
   ],
   "note": ""
  },
  {
   "property": "C122",
   "status": "proved",
   "theorems": [
    "C122_named_black_holes",
    "C122_any_metric",
    "C122_trajectory",
    "C122_modes"
   ],
   "note": ""
  },
  {
   "property": "C123",
   "status": "proved",
   "theorems": [
    "C123_schwarzschild",
    "C123_kerr",
    "C123_kerr_newman"
   ],
   "note": ""
  },
  {
   "property": "C124",
   "status": "proved",
   "theorems": [
    "C124_exact",
    "C124_accurate",
    "C124_solve",
    "C124_solve_exact"
   ],
   "note": ""
  },
  {
   "property": "C125",
   "status": "proved",
   "theorems": [
    "C125_event",
    "C125_same_object",
    "C125_closed",
    "C125_velocity_meaning",
    "C125_motion",
    "C125_motion_same_object",
    "C125_motion_closed"
   ],
   "note": ""
  },
  {
   "property": "C126",
   "status": "proved",
   "theorems": [
    "C126_carter_exact",
    "C126_angular_momentum_exact",
    "C126_angular_momentum_schwarzschild",
    "C126_plane",
    "C126_kerr_newman",
    "C126_schwarzschild"
   ],
   "note": ""
  },
  {
   "property": "C127",
   "status": "proved",
   "theorems": [
    "C127_geodesic",
    "C127_exists",
    "C127_never_crosses",
    "C127_rows",
    "C127_rows_rounded",
    "C127_kerr_newman",
    "C127_schwarzschild",
    "C127_kerr_newman_turning",
    "C127_schwarzschild_turning",
    "C127_kerr_newman_flow",
    "C127_schwarzschild_flow",
    "C127_any_system"
   ],
   "note": ""
  },
  {
   "property": "C128",
   "status": "proved",
   "theorems": [
    "C128_positions",
    "C128_motions",
    "C128_closed",
    "C128_closed_motions",
    "C128_spin_length",
    "C128_ieee",
    "C128_exact"
   ],
   "note": ""
  },
  {
   "property": "C129",
   "status": "partial",
   "theorems": [
    "C129_get_constant",
    "C129_get_constant_names",
    "C129_get_constant_error",
    "C129_construction",
    "C129_equal",
    "C129_distinct",
    "C129_distinct_assumptions",
    "C129_descriptions_kept",
    "C129_last_description",
    "C129_overwrites",
    "C129_description_refuted"
   ],
   "note": "FINDING: the last clause is false. Symbol.__new__ returns the object sympy's cache holds for the name and assumptions, and SymbolicConstant.__new__ then sets _descriptive_name on it: SymbolicConstant('c') returns the module's c and erases its description (proved: C129_description_refuted, C129_overwrites). Everything else is proved for every history; descriptions are kept as long as no constant of the same name is constructed (C129_descriptions_kept). That sympy's cache behaves so is trusted (sympy is not in /repo)."
  },
  {
   "property": "C130",
   "status": "proved",
   "theorems": [
    "C130_geodesic_reach",
    "C130_geodesic_captured",
    "C130_geodesic_escapes",
    "C130_geodesic_scattered",
    "C130_geodesic_bound",
    "C130_reach",
    "C130_captured",
    "C130_escapes",
    "C130_scattered",
    "C130_bound",
    "C130_kerr_newman_reach",
    "C130_kerr_newman_captured",
    "C130_kerr_newman_escapes",
    "C130_kerr_newman_scattered",
    "C130_kerr_newman_bound",
    "C130_schwarzschild_reach",
    "C130_schwarzschild_captured",
    "C130_schwarzschild_escapes",
    "C130_schwarzschild_scattered",
    "C130_schwarzschild_bound",
    "C130_kerr_newman_reach_flow",
    "C130_kerr_newman_captured_flow",
    "C130_kerr_newman_escapes_flow",
    "C130_kerr_newman_scattered_flow",
    "C130_kerr_newman_bound_flow",
    "C130_schwarzschild_reach_flow",
    "C130_schwarzschild_captured_flow",
    "C130_schwarzschild_escapes_flow",
    "C130_schwarzschild_scattered_flow",
    "C130_schwarzschild_bound_flow"
   ],
   "note": ""
  },
  {
   "property": "C131",
   "status": "proved",
   "theorems": [
    "C131_figure",
    "C131_history",
    "C131_angles",
    "C131_one_step",
    "C131_no_steps",
    "C131_negative"
   ],
   "note": "Observation: before the slider is first moved all n heatmaps are drawn (visible is set only on the last and unset means shown); only the last is seen because it lies on top. Parametrised by image size and iter_max; the code has 400 and 64."
  },
  {
   "property": "C132",
   "status": "proved",
   "theorems": [
    "C132_orbit_unique",
    "C132_barred",
    "C132_escapes",
    "C132_flyby",
    "C132_bound",
    "C132_rows",
    "C132_geodesic_barred",
    "C132_geodesic_escapes",
    "C132_geodesic_flyby",
    "C132_geodesic_bound",
    "C132_kerr_newman_unique",
    "C132_kerr_newman_rows",
    "C132_kerr_newman_barred",
    "C132_kerr_newman_escapes",
    "C132_kerr_newman_scattered",
    "C132_kerr_newman_bound",
    "C132_schwarzschild_unique",
    "C132_schwarzschild_rows",
    "C132_schwarzschild_barred",
    "C132_schwarzschild_escapes",
    "C132_schwarzschild_scattered",
    "C132_schwarzschild_bound",
    "C132_precision",
    "C132_kerr_newman_precision",
    "C132_schwarzschild_precision",
    "C132_formats"
   ],
   "note": ""
  }
 ]
}