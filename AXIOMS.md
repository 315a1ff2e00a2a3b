# What `Print Assumptions` lists for each property theorem

Generated by `tools/axioms.py` from the build. Every set below consists of axioms of the Coq standard library only.

* **S0** (130 theorems): closed under the global context
* **S1** (8 theorems): `ClassicalDedekindReals.sig_forall_dec`
* **S2** (52 theorems): `ClassicalDedekindReals.sig_forall_dec`, `FunctionalExtensionality.functional_extensionality_dep`
* **S3** (128 theorems): `ClassicalDedekindReals.sig_forall_dec`, `ClassicalDedekindReals.sig_not_dec`, `FunctionalExtensionality.functional_extensionality_dep`
* **S4** (430 theorems): `ClassicalDedekindReals.sig_forall_dec`, `ClassicalDedekindReals.sig_not_dec`, `Classical_Prop.classic`, `FunctionalExtensionality.functional_extensionality_dep`

| theorem | file | set |
|---|---|---|
| C108_schwarzschild_metric | P_Agree.v | S4 |
| C108_kerr_metric | P_Agree.v | S4 |
| C108_kerr_newman_metric | P_Agree.v | S4 |
| C108_schwarzschild_christoffels | P_Agree.v | S4 |
| C108_kerr_newman_christoffels | P_Agree.v | S4 |
| C108_kerr_christoffels | P_Agree.v | S4 |
| C108_kerr_christoffels_iff | P_Agree.v | S4 |
| C108_kerr_christoffels_refuted | P_Agree.v | S4 |
| C108_charge | P_Agree.v | S4 |
| C108_charge_refuted | P_Agree.v | S4 |
| C108_geodesic_schwarzschild | P_Agree.v | S4 |
| C108_geodesic_kerr | P_Agree.v | S4 |
| C108_geodesic_kerr_newman | P_Agree.v | S4 |
| C112_constants_of_motion | P_Carter.v | S4 |
| C112_plane_of_motion | P_Carter.v | S4 |
| C112_carter_exact | P_Carter.v | S4 |
| C112_angular_momentum_exact | P_Carter.v | S4 |
| C112_carter_drift | P_Carter.v | S4 |
| C112_any_constant | P_Carter.v | S4 |
| C112_any_constant_rounded | P_Carter.v | S4 |
| C126_carter_exact | P_Const.v | S4 |
| C126_angular_momentum_exact | P_Const.v | S4 |
| C126_angular_momentum_schwarzschild | P_Const.v | S4 |
| C126_plane | P_Const.v | S3 |
| C126_kerr_newman | P_Const.v | S4 |
| C126_schwarzschild | P_Const.v | S4 |
| C26_values | P_Conv.v | S0 |
| C26_length | P_Conv.v | S4 |
| C26_missing_kwargs | P_Conv.v | S4 |
| C26_invalid_spin | P_Conv.v | S4 |
| C26_positions | P_Conv.v | S4 |
| C26_velocities | P_Conv.v | S4 |
| C27_position | P_Conv.v | S4 |
| C27_velocity | P_Conv.v | S4 |
| C27_rescale | P_Conv.v | S2 |
| C27_arguments | P_Conv.v | S1 |
| C27_differential_arguments | P_Conv.v | S1 |
| C27_position_value | P_Conv.v | S1 |
| C27_differential_position_value | P_Conv.v | S1 |
| C27_conversion | P_Conv.v | S4 |
| C27_differential_conversion | P_Conv.v | S4 |
| C27_object_round_trip | P_Conv.v | S4 |
| C27_object_round_trip_bl | P_Conv.v | S4 |
| C29_normalised | P_Conv.v | S3 |
| C29_defined_iff | P_Conv.v | S3 |
| C29_future | P_Conv.v | S3 |
| C29_velocity | P_Conv.v | S3 |
| C29_velocity_value | P_Conv.v | S3 |
| C29_mismatch | P_Conv.v | S3 |
| C29_frame | P_Conv.v | S3 |
| C29_history | P_Conv.v | S3 |
| C30_int | P_Conv.v | S0 |
| C30_int_out | P_Conv.v | S0 |
| C30_name | P_Conv.v | S0 |
| C30_system | P_Conv.v | S0 |
| C30_documented | P_Conv.v | S0 |
| C30_unknown | P_Conv.v | S0 |
| C31_lorentz | P_Conv.v | S3 |
| C31_superluminal | P_Conv.v | S3 |
| C31_speed_only | P_Conv.v | S3 |
| C19_cart_sph_cart | P_Coord.v | S4 |
| C20_sph_cart_sph | P_Coord.v | S4 |
| C21_cart_sph_velocity | P_Coord.v | S4 |
| C21_sph_cart_velocity | P_Coord.v | S3 |
| C21_round_trip_sph | P_Coord.v | S3 |
| C21_round_trip_cart | P_Coord.v | S4 |
| C22_cart_bl_cart | P_Coord.v | S4 |
| C22_bl_cart_bl | P_Coord.v | S4 |
| C22_defined_off_disc | P_Coord.v | S3 |
| C22_oblate_ellipsoid | P_Coord.v | S3 |
| C23_bl_cart_velocity | P_Coord.v | S3 |
| C23_cart_bl_velocity | P_Coord.v | S4 |
| C23_round_trip_cart | P_Coord.v | S4 |
| C23_round_trip_bl | P_Coord.v | S4 |
| C24_bl_vphi_refuted | P_Coord.v | S3 |
| C24_available_iff | P_Coord.v | S4 |
| C24_x0 | P_Coord.v | S3 |
| C25_zero_spin_pos | P_Coord.v | S4 |
| C25_zero_spin_pos_inv | P_Coord.v | S3 |
| C25_zero_spin_vel | P_Coord.v | S4 |
| C25_zero_spin_vel_inv | P_Coord.v | S3 |
| C102_entries | P_Cov.v | S0 |
| C102_never_inverse | P_Cov.v | S0 |
| C102_one_dimension | P_Cov.v | S0 |
| C102_jacobian_refuted | P_Cov.v | S4 |
| C102_rank | P_Cov.v | S0 |
| C102_from_old2new | P_Cov.v | S0 |
| C103_christoffel | P_Cov.v | S0 |
| C103_riemann | P_Cov.v | S0 |
| C103_ricci | P_Cov.v | S0 |
| C103_scalar | P_Cov.v | S0 |
| C103_einstein | P_Cov.v | S0 |
| C103_schouten | P_Cov.v | S0 |
| C103_weyl | P_Cov.v | S0 |
| C103_change_config | P_Cov.v | S0 |
| C103_substitution | P_Cov.v | S4 |
| C103_minkowski_polar | P_Cov.v | S4 |
| C103_nonvacuous | P_Cov.v | S4 |
| C104_weyl | P_Cov.v | S0 |
| C104_weyl_ulll | P_Cov.v | S0 |
| C104_schouten | P_Cov.v | S0 |
| C104_constant_factor | P_Cov.v | S0 |
| C104_nonvacuous | P_Cov.v | S4 |
| C01_ad_exact | P_Dual.v | S4 |
| C01_ad_exact_single | P_Dual.v | S4 |
| C01_plain_run | P_Dual.v | S4 |
| C01_div_by_zero_raises | P_Dual.v | S2 |
| C01_power_at_zero | P_Dual.v | S4 |
| C01_power_outside | P_Dual.v | S4 |
| C02_zero_over_zero_limit_partial | P_Dual.v | S4 |
| C02_zero_over_zero_deriv_refuted | P_Dual.v | S4 |
| C03_add_comm | P_Dual.v | S2 |
| C03_add_assoc | P_Dual.v | S2 |
| C03_mul_comm | P_Dual.v | S2 |
| C03_mul_assoc | P_Dual.v | S2 |
| C03_distrib | P_Dual.v | S2 |
| C03_sub_is_add_neg | P_Dual.v | S1 |
| C03_neg_neg | P_Dual.v | S2 |
| C03_add_neg | P_Dual.v | S2 |
| C03_div_mul | P_Dual.v | S2 |
| C03_pow2 | P_Dual.v | S2 |
| C03_lift_add | P_Dual.v | S2 |
| C03_lift_sub | P_Dual.v | S2 |
| C03_lift_mul | P_Dual.v | S2 |
| C03_lift_div | P_Dual.v | S2 |
| C03_comparison | P_Dual.v | S2 |
| C03_equality | P_Dual.v | S2 |
| C107_geodesic | P_Exists.v | S4 |
| C107_geodesic_unique | P_Exists.v | S4 |
| C107_rk4 | P_Exists.v | S4 |
| C107_solution_unique | P_Exists.v | S4 |
| C107_schwarzschild_motion | P_Exists.v | S4 |
| C107_schwarzschild_motion_unique | P_Exists.v | S4 |
| C107_kerr_newman_motion | P_Exists.v | S4 |
| C107_kerr_newman_motion_unique | P_Exists.v | S4 |
| C08_mixed_sums | P_Fantasy.v | S3 |
| C08_mixed_rotates_differences | P_Fantasy.v | S3 |
| C08_mixed_norm | P_Fantasy.v | S3 |
| C08_mixed_group | P_Fantasy.v | S3 |
| C08_mixed_zero | P_Fantasy.v | S3 |
| C08_mixed_inverse | P_Fantasy.v | S3 |
| C08_mixed_hamilton | P_Fantasy.v | S4 |
| C09_flow_A | P_Fantasy.v | S4 |
| C09_flow_B | P_Fantasy.v | S4 |
| C09_energy_A | P_Fantasy.v | S4 |
| C09_energy_B | P_Fantasy.v | S4 |
| C09_builtin_metrics_qualify | P_Fantasy.v | S4 |
| C10_reversible | P_Fantasy.v | S4 |
| C11_cyclic_momentum_all_steps | P_Fantasy.v | S4 |
| C11_cyclic_momentum_one_step | P_Fantasy.v | S4 |
| C11_independent_is_cyclic | P_Fantasy.v | S4 |
| C11_builtin_stationary_axisymmetric | P_Fantasy.v | S1 |
| C12_order_is_composition | P_Fantasy.v | S4 |
| C12_weights_sum_to_one | P_Fantasy.v | S4 |
| C12_jump_sum | P_Fantasy.v | S4 |
| C12_jump_cancels_leading_error | P_Fantasy.v | S4 |
| C12_order4_cubic | P_Fantasy.v | S4 |
| C13_orders_6_8_cubic_refuted | P_Fantasy.v | S4 |
| C13_local_order_3_refuted | P_Fantasy.v | S4 |
| C13_correct_nesting_would_cancel | P_Fantasy.v | S4 |
| C14_history | P_Fantasy.v | S4 |
| C14_suppress_only_warnings | P_Fantasy.v | S4 |
| C14_suppressed_never_warns | P_Fantasy.v | S4 |
| C14_warning_iff | P_Fantasy.v | S4 |
| C14_history_warnings_as_errors_refuted | P_Fantasy.v | S4 |
| C87_every_order_is_at_least_second | P_Fantasy.v | S4 |
| C87_order_four_is_fourth | P_Fantasy.v | S4 |
| C87_doubled_system | P_Fantasy.v | S4 |
| C88_symplectic | P_Fantasy.v | S4 |
| C88_regular_everywhere | P_Fantasy.v | S4 |
| C89_global_convergence | P_Fantasy.v | S4 |
| C93_exactly_constant_on_geodesics | P_Fantasy.v | S4 |
| C93_mass_shell_drift | P_Fantasy.v | S4 |
| C130_geodesic_reach | P_Fate.v | S4 |
| C130_geodesic_captured | P_Fate.v | S4 |
| C130_geodesic_escapes | P_Fate.v | S4 |
| C130_geodesic_scattered | P_Fate.v | S4 |
| C130_geodesic_bound | P_Fate.v | S4 |
| C130_reach | P_Fate.v | S4 |
| C130_captured | P_Fate.v | S4 |
| C130_escapes | P_Fate.v | S4 |
| C130_scattered | P_Fate.v | S4 |
| C130_bound | P_Fate.v | S4 |
| C130_kerr_newman_reach | P_Fate.v | S4 |
| C130_kerr_newman_captured | P_Fate.v | S4 |
| C130_kerr_newman_escapes | P_Fate.v | S4 |
| C130_kerr_newman_scattered | P_Fate.v | S4 |
| C130_kerr_newman_bound | P_Fate.v | S4 |
| C130_schwarzschild_reach | P_Fate.v | S4 |
| C130_schwarzschild_captured | P_Fate.v | S4 |
| C130_schwarzschild_escapes | P_Fate.v | S4 |
| C130_schwarzschild_scattered | P_Fate.v | S4 |
| C130_schwarzschild_bound | P_Fate.v | S4 |
| C130_kerr_newman_reach_flow | P_Fate.v | S4 |
| C130_kerr_newman_captured_flow | P_Fate.v | S4 |
| C130_kerr_newman_escapes_flow | P_Fate.v | S4 |
| C130_kerr_newman_scattered_flow | P_Fate.v | S4 |
| C130_kerr_newman_bound_flow | P_Fate.v | S4 |
| C130_schwarzschild_reach_flow | P_Fate.v | S4 |
| C130_schwarzschild_captured_flow | P_Fate.v | S4 |
| C130_schwarzschild_escapes_flow | P_Fate.v | S4 |
| C130_schwarzschild_scattered_flow | P_Fate.v | S4 |
| C130_schwarzschild_bound_flow | P_Fate.v | S4 |
| C109_named_black_holes | P_Float.v | S4 |
| C109_ieee | P_Float.v | S4 |
| C109_any_metric | P_Float.v | S4 |
| C109_trajectory | P_Float.v | S4 |
| C109_close_to_exact | P_Float.v | S4 |
| C109_trajectory_close | P_Float.v | S4 |
| C109_precision | P_Float.v | S4 |
| C109_exact_trajectory | P_Float.v | S4 |
| C109_exact_is_accurate | P_Float.v | S4 |
| C109_ieee_is_accurate | P_Float.v | S4 |
| C109_coarser | P_Float.v | S4 |
| C110_program | P_Float.v | S4 |
| C110_dual | P_Float.v | S4 |
| C110_metric | P_Float.v | S4 |
| C110_jacobian | P_Float.v | S4 |
| C110_momentum | P_Float.v | S4 |
| C110_exact_program | P_Float.v | S4 |
| C110_exact_jacobian | P_Float.v | S4 |
| C110_exact_momentum | P_Float.v | S4 |
| C110_named | P_Float.v | S1 |
| C111_rounded | P_Float.v | S4 |
| C111_close_to_exact | P_Float.v | S4 |
| C111_exact | P_Float.v | S4 |
| C111_length | P_Float.v | S2 |
| C111_ieee | P_Float.v | S4 |
| C113_cart_to_sph | P_FloatCoord.v | S4 |
| C113_cart_to_bl | P_FloatCoord.v | S4 |
| C113_cart_to_bl_vel | P_FloatCoord.v | S4 |
| C113_sph_to_cart | P_FloatCoord.v | S4 |
| C113_bl_to_cart | P_FloatCoord.v | S4 |
| C113_cart_sph_cart | P_FloatCoord.v | S4 |
| C113_cart_bl_cart | P_FloatCoord.v | S4 |
| C113_sph_cart_sph | P_FloatCoord.v | S4 |
| C113_bl_cart_bl | P_FloatCoord.v | S4 |
| C113_ieee | P_FloatCoord.v | S4 |
| C113_ieee_exists | P_FloatCoord.v | S4 |
| C113_exact | P_FloatCoord.v | S4 |
| C113_exact_to_sph | P_FloatCoord.v | S4 |
| C113_exact_to_sph_vel | P_FloatCoord.v | S4 |
| C113_exact_from_sph | P_FloatCoord.v | S3 |
| C113_exact_from_sph_vel | P_FloatCoord.v | S3 |
| C113_exact_to_bl | P_FloatCoord.v | S4 |
| C113_exact_to_bl_vel | P_FloatCoord.v | S4 |
| C113_exact_from_bl | P_FloatCoord.v | S4 |
| C113_exact_from_bl_vel | P_FloatCoord.v | S4 |
| C114_axis_refuted | P_FloatCoord.v | S4 |
| C114_axis_exact | P_FloatCoord.v | S4 |
| C114_point_z | P_FloatCoord.v | S4 |
| C114_point_alpha | P_FloatCoord.v | S4 |
| C118_schwarzschild | P_FloatFlow.v | S4 |
| C118_kerr | P_FloatFlow.v | S4 |
| C118_kerr_newman | P_FloatFlow.v | S4 |
| C119_schwarzschild | P_FloatFlow.v | S4 |
| C119_kerr | P_FloatFlow.v | S4 |
| C119_kerr_newman | P_FloatFlow.v | S4 |
| C120_schwarzschild | P_FloatFlow.v | S4 |
| C120_kerr_newman | P_FloatFlow.v | S4 |
| C120_kerr_energy | P_FloatFlow.v | S4 |
| C121_schwarzschild | P_FloatFlow.v | S4 |
| C121_kerr | P_FloatFlow.v | S4 |
| C121_kerr_newman | P_FloatFlow.v | S4 |
| C115_sch_metric | P_FloatMetric.v | S4 |
| C115_sch_contra | P_FloatMetric.v | S4 |
| C115_sch_christoffels | P_FloatMetric.v | S4 |
| C115_sch_f_vec | P_FloatMetric.v | S4 |
| C115_kerr_metric | P_FloatMetric.v | S4 |
| C115_kerr_contra | P_FloatMetric.v | S4 |
| C115_kerr_christoffels | P_FloatMetric.v | S4 |
| C115_kerr_f_vec | P_FloatMetric.v | S4 |
| C115_kn_metric | P_FloatMetric.v | S4 |
| C115_kn_contra | P_FloatMetric.v | S4 |
| C115_kn_christoffels | P_FloatMetric.v | S4 |
| C115_kn_f_vec | P_FloatMetric.v | S4 |
| C115_em_covariant | P_FloatMetric.v | S4 |
| C115_em_contravariant | P_FloatMetric.v | S4 |
| C115_ieee | P_FloatMetric.v | S4 |
| C115_ieee_any | P_FloatMetric.v | S4 |
| C115_ieee_exists | P_FloatMetric.v | S4 |
| C116_sch | P_FloatMetric.v | S4 |
| C116_kerr | P_FloatMetric.v | S4 |
| C116_kn | P_FloatMetric.v | S4 |
| C117_kerr_motion | P_FloatMetric.v | S4 |
| C117_kerr_motion_unique | P_FloatMetric.v | S4 |
| C117_charged_motion | P_FloatMetric.v | S4 |
| C117_charged_motion_unique | P_FloatMetric.v | S4 |
| C117_kerr_rk4 | P_FloatMetric.v | S4 |
| C117_charged_rk4 | P_FloatMetric.v | S4 |
| C124_exact | P_FloatMetric.v | S4 |
| C124_accurate | P_FloatMetric.v | S4 |
| C124_solve | P_FloatMetric.v | S4 |
| C124_solve_exact | P_FloatMetric.v | S4 |
| C122_named_black_holes | P_FloatOut.v | S4 |
| C122_any_metric | P_FloatOut.v | S4 |
| C122_trajectory | P_FloatOut.v | S4 |
| C122_modes | P_FloatOut.v | S2 |
| C123_schwarzschild | P_FloatOut.v | S4 |
| C123_kerr | P_FloatOut.v | S4 |
| C123_kerr_newman | P_FloatOut.v | S4 |
| C128_positions | P_FloatPath.v | S4 |
| C128_motions | P_FloatPath.v | S4 |
| C128_closed | P_FloatPath.v | S4 |
| C128_closed_motions | P_FloatPath.v | S4 |
| C128_spin_length | P_FloatPath.v | S4 |
| C128_ieee | P_FloatPath.v | S4 |
| C128_exact | P_FloatPath.v | S4 |
| C132_orbit_unique | P_Forever.v | S4 |
| C132_barred | P_Forever.v | S4 |
| C132_escapes | P_Forever.v | S4 |
| C132_flyby | P_Forever.v | S4 |
| C132_bound | P_Forever.v | S4 |
| C132_rows | P_Forever.v | S4 |
| C132_geodesic_barred | P_Forever.v | S4 |
| C132_geodesic_escapes | P_Forever.v | S4 |
| C132_geodesic_flyby | P_Forever.v | S4 |
| C132_geodesic_bound | P_Forever.v | S4 |
| C132_kerr_newman_unique | P_Forever.v | S4 |
| C132_kerr_newman_rows | P_Forever.v | S4 |
| C132_kerr_newman_barred | P_Forever.v | S4 |
| C132_kerr_newman_escapes | P_Forever.v | S4 |
| C132_kerr_newman_scattered | P_Forever.v | S4 |
| C132_kerr_newman_bound | P_Forever.v | S4 |
| C132_schwarzschild_unique | P_Forever.v | S4 |
| C132_schwarzschild_rows | P_Forever.v | S4 |
| C132_schwarzschild_barred | P_Forever.v | S4 |
| C132_schwarzschild_escapes | P_Forever.v | S4 |
| C132_schwarzschild_scattered | P_Forever.v | S4 |
| C132_schwarzschild_bound | P_Forever.v | S4 |
| C132_precision | P_Forever.v | S4 |
| C132_kerr_newman_precision | P_Forever.v | S4 |
| C132_schwarzschild_precision | P_Forever.v | S4 |
| C132_formats | P_Forever.v | S4 |
| C131_figure | P_Fractal.v | S4 |
| C131_history | P_Fractal.v | S4 |
| C131_angles | P_Fractal.v | S2 |
| C131_one_step | P_Fractal.v | S0 |
| C131_no_steps | P_Fractal.v | S0 |
| C131_negative | P_Fractal.v | S4 |
| C04_jacobian | P_Geo.v | S4 |
| C04_diff_g_bad_wrt | P_Geo.v | S4 |
| C04_diff_g_bad_arity | P_Geo.v | S4 |
| C04_jacobian_bad_wrt | P_Geo.v | S4 |
| C04_kerr_defined | P_Geo.v | S4 |
| C04_kn_defined | P_Geo.v | S4 |
| C04_sch_defined | P_Geo.v | S4 |
| C05_kerrnewman_inverse | P_Geo.v | S4 |
| C05_kerr_inverse | P_Geo.v | S4 |
| C05_schwarzschild_inverse | P_Geo.v | S4 |
| C05_kn_without_charge_is_kerr | P_Geo.v | S4 |
| C05_kerr_without_spin_is_schwarzschild | P_Geo.v | S4 |
| C06_P_kerrnewman | P_Geo.v | S4 |
| C06_P_kerr | P_Geo.v | S4 |
| C06_P_schwarzschild | P_Geo.v | S4 |
| C06_P_block_metric | P_Geo.v | S3 |
| C06_P_fails_iff | P_Geo.v | S3 |
| C07_P_residual_partial | P_Geo.v | S3 |
| C07_P_user_metric_refuted | P_Geo.v | S4 |
| C15_trajectory | P_Geodesic.v | S4 |
| C15_rows_are_iterates | P_Geodesic.v | S0 |
| C15_steps_complete | P_Geodesic.v | S4 |
| C15_modes_agree | P_Geodesic.v | S4 |
| C15_geodesic | P_Geodesic.v | S4 |
| C15_defaults | P_Geodesic.v | S4 |
| C15_unknown_metric | P_Geodesic.v | S4 |
| C15_unknown_order | P_Geodesic.v | S4 |
| C15_unknown_order_exception | P_Geodesic.v | S4 |
| C15_zero_steps_refuted | P_Geodesic.v | S4 |
| C15_named_metric | P_Geodesic.v | S4 |
| C15_timelike | P_Geodesic.v | S4 |
| C15_nulllike | P_Geodesic.v | S4 |
| C15_cartesian | P_Geodesic.v | S4 |
| C28_radius_units_refuted | P_Metric.v | S2 |
| C28_radius_correct_iff | P_Metric.v | S2 |
| C28_si_units_same | P_Metric.v | S2 |
| C32_alpha_error_iff | P_Metric.v | S2 |
| C32_alpha_value | P_Metric.v | S2 |
| C32_sigma_rho_delta | P_Metric.v | S3 |
| C32_helpers_invalid | P_Metric.v | S3 |
| C33_kerr_singularities | P_Metric.v | S3 |
| C33_kerr_metric_finite_iff | P_Metric.v | S3 |
| C33_schwarzschild | P_Metric.v | S3 |
| C33_coordinate_error_iff | P_Metric.v | S3 |
| C34_connection | P_Metric.v | S3 |
| C34_defined_iff | P_Metric.v | S3 |
| C34_wrong_system | P_Metric.v | S3 |
| C35_kerr_dgdx_refuted | P_Metric.v | S3 |
| C35_kerr_dgdx_exact | P_Metric.v | S3 |
| C36_kn_dgdx_gradient | P_Metric.v | S3 |
| C36_gradient_is_partials | P_Metric.v | S2 |
| C36_kn_connection | P_Metric.v | S3 |
| C37_kn_metric_refuted | P_Metric.v | S3 |
| C37_charged_always_wrong | P_Metric.v | S3 |
| C37_charge_error | P_Metric.v | S3 |
| C37_charge_ignored | P_Metric.v | S3 |
| C37_uncharged_textbook | P_Metric.v | S3 |
| C37_finite_at_reported_horizon | P_Metric.v | S3 |
| C38_sparse_complete | P_Metric.v | S2 |
| C38_list_exact | P_Metric.v | S0 |
| C38_list_sound | P_Metric.v | S2 |
| C38_kerr_blocks | P_Metric.v | S3 |
| C38_kn_blocks | P_Metric.v | S3 |
| C39_schwarzschild | P_Metric.v | S3 |
| C39_kerr | P_Metric.v | S3 |
| C39_kerr_newman | P_Metric.v | S3 |
| C39_kerr_newman_uncharged | P_Metric.v | S3 |
| C39_wrong_system | P_Metric.v | S3 |
| C40_schwarzschild | P_Metric.v | S3 |
| C40_kerr_newman | P_Metric.v | S3 |
| C40_kerr_drift | P_Metric.v | S3 |
| C40_kerr_refuted | P_Metric.v | S3 |
| C41_antisymmetric | P_Metric.v | S3 |
| C41_contra_antisymmetric | P_Metric.v | S3 |
| C41_exterior_derivative_exact | P_Metric.v | S3 |
| C41_exterior_derivative_partial | P_Metric.v | S3 |
| C41_exterior_derivative_refuted | P_Metric.v | S3 |
| C41_gradient_unique | P_Metric.v | S3 |
| C42_drift | P_Metric.v | S3 |
| C42_lorentz_refuted | P_Metric.v | S3 |
| C42_textbook_force_orthogonal | P_Metric.v | S2 |
| C43_perturbation | P_Metric.v | S1 |
| C43_inverse_iff | P_Metric.v | S2 |
| C43_error | P_Metric.v | S2 |
| C43_symmetric | P_Metric.v | S3 |
| C43_contra_symmetric | P_Metric.v | S2 |
| C43_kerr_defined_iff | P_Metric.v | S3 |
| C95_schwarzschild | P_Metric.v | S3 |
| C95_kerr_newman_uncharged_particle | P_Metric.v | S3 |
| C95_kerr_energy | P_Metric.v | S3 |
| C95_kerr_rate | P_Metric.v | S3 |
| C95_kerr_angular_momentum_refuted | P_Metric.v | S3 |
| C66_exact | P_Misc.v | S0 |
| C66_order | P_Misc.v | S0 |
| C66_nodup | P_Misc.v | S0 |
| C66_case_insensitive | P_Misc.v | S0 |
| C66_narrowing | P_Misc.v | S0 |
| C66_all | P_Misc.v | S0 |
| C66_only_constructors | P_Misc.v | S0 |
| C66_finds_itself | P_Misc.v | S0 |
| C67_division_exact | P_Misc.v | S4 |
| C67_sharp | P_Misc.v | S4 |
| C67_christoffel | P_Misc.v | S4 |
| C67_riemann | P_Misc.v | S4 |
| C67_weyl | P_Misc.v | S4 |
| C67_christoffel_loop | P_Misc.v | S4 |
| C67_riemann_loop | P_Misc.v | S4 |
| C68_derivative | P_Misc.v | S4 |
| C68_derivative_dark_energy | P_Misc.v | S4 |
| C68_hubble | P_Misc.v | S4 |
| C68_unknown_era | P_Misc.v | S4 |
| C68_defined_iff | P_Misc.v | S4 |
| C68_unit_independent | P_Misc.v | S4 |
| C69_terminates | P_Misc.v | S3 |
| C69_samples | P_Misc.v | S3 |
| C69_range | P_Misc.v | S2 |
| C69_small_mass_refuted | P_Misc.v | S3 |
| C69_negative_alpha_diverges | P_Misc.v | S3 |
| C69_surface_terminates | P_Misc.v | S3 |
| C69_surface | P_Misc.v | S3 |
| C69_undefined_after | P_Misc.v | S3 |
| C70_radius | P_Misc.v | S3 |
| C70_slope_value | P_Misc.v | S3 |
| C70_radius_derivative | P_Misc.v | S4 |
| C70_slope_factor | P_Misc.v | S4 |
| C70_slope_sign | P_Misc.v | S3 |
| C70_isometric_exists | P_Misc.v | S4 |
| C70_isometric_iff | P_Misc.v | S4 |
| C70_isometric_refuted | P_Misc.v | S4 |
| C75_primitive | P_Misc.v | S0 |
| C76_message_keeps_arguments | P_Misc.v | S0 |
| C76_message_equations | P_Misc.v | S0 |
| C76_repr | P_Misc.v | S0 |
| C77_defined_iff | P_Misc.v | S0 |
| C77_state | P_Misc.v | S0 |
| C78_arguments | P_Misc.v | S0 |
| C78_deterministic | P_Misc.v | S0 |
| C78_explicit | P_Misc.v | S0 |
| C78_given_variables | P_Misc.v | S0 |
| C78_calls_correct | P_Misc.v | S4 |
| C78_default_calls_correct | P_Misc.v | S4 |
| C105_named | P_Motion.v | S4 |
| C105_schwarzschild | P_Motion.v | S4 |
| C105_kerr_newman | P_Motion.v | S4 |
| C105_schwarzschild_trajectory | P_Motion.v | S4 |
| C105_kerr_newman_trajectory | P_Motion.v | S4 |
| C105_kerr_exact | P_Motion.v | S4 |
| C105_kerr_refuted | P_Motion.v | S4 |
| C105_circular_orbit | P_Motion.v | S4 |
| C106_schwarzschild_rk4 | P_Motion.v | S4 |
| C106_kerr_newman_rk4 | P_Motion.v | S4 |
| C106_solvers_agree_schwarzschild | P_Motion.v | S4 |
| C106_solvers_agree_kerr_newman | P_Motion.v | S4 |
| C127_geodesic | P_Orbit.v | S4 |
| C127_exists | P_Orbit.v | S4 |
| C127_never_crosses | P_Orbit.v | S4 |
| C127_rows | P_Orbit.v | S4 |
| C127_rows_rounded | P_Orbit.v | S4 |
| C127_kerr_newman | P_Orbit.v | S4 |
| C127_schwarzschild | P_Orbit.v | S4 |
| C127_kerr_newman_turning | P_Orbit.v | S4 |
| C127_schwarzschild_turning | P_Orbit.v | S4 |
| C127_kerr_newman_flow | P_Orbit.v | S4 |
| C127_schwarzschild_flow | P_Orbit.v | S4 |
| C127_any_system | P_Orbit.v | S4 |
| C125_event | P_Path.v | S4 |
| C125_same_object | P_Path.v | S4 |
| C125_closed | P_Path.v | S4 |
| C125_velocity_meaning | P_Path.v | S4 |
| C125_motion | P_Path.v | S4 |
| C125_motion_same_object | P_Path.v | S4 |
| C125_motion_closed | P_Path.v | S4 |
| C71_aligned | P_Plot.v | S3 |
| C71_rays | P_Plot.v | S3 |
| C71_raises | P_Plot.v | S3 |
| C71_smoothen | P_Plot.v | S2 |
| C71_smoothen_defined | P_Plot.v | S3 |
| C83_positive | P_Plot.v | S3 |
| C83_quadrature_inside | P_Plot.v | S3 |
| C83_red_value | P_Plot.v | S3 |
| C83_blue_value | P_Plot.v | S3 |
| C83_below_critical | P_Plot.v | S3 |
| C83_beyond_turning | P_Plot.v | S2 |
| C84_root_is_turning_point | P_Plot.v | S3 |
| C84_turning_iff | P_Plot.v | S3 |
| C84_turning_refuted | P_Plot.v | S3 |
| C84_safe | P_Plot.v | S3 |
| C72_horizon | P_Plot.v | S3 |
| C72_ergosphere_value | P_Plot.v | S3 |
| C72_true_ergosphere | P_Plot.v | S3 |
| C72_drawn_iff | P_Plot.v | S3 |
| C72_bounds | P_Plot.v | S3 |
| C72_inside_horizon_iff | P_Plot.v | S3 |
| C72_2D_refuted | P_Plot.v | S3 |
| C72_3D_refuted | P_Plot.v | S3 |
| C73_static_plot | P_Plot.v | S3 |
| C73_interactive_plot | P_Plot.v | S3 |
| C73_static_plot2D | P_Plot.v | S3 |
| C73_interactive_plot2D | P_Plot.v | S3 |
| C73_no_parameters | P_Plot.v | S3 |
| C73_parametric | P_Plot.v | S0 |
| C73_backend | P_Plot.v | S0 |
| C74_pixel | P_Plot.v | S4 |
| C74_escape_unique | P_Plot.v | S3 |
| C74_range | P_Plot.v | S4 |
| C74_one_iff | P_Plot.v | S4 |
| C74_escape_sound | P_Plot.v | S4 |
| C74_image | P_Plot.v | S4 |
| C74_zero_iterations | P_Plot.v | S4 |
| C74_slider | P_Plot.v | S0 |
| C85_accumulates | P_Plot.v | S3 |
| C85_after_clear | P_Plot.v | S3 |
| C85_failed_plot | P_Plot.v | S3 |
| C85_failed_plot2D_refuted | P_Plot.v | S3 |
| C85_static_last | P_Plot.v | S3 |
| C86_limits | P_Plot.v | S2 |
| C86_margins | P_Plot.v | S2 |
| C86_defined_iff | P_Plot.v | S2 |
| C86_frames | P_Plot.v | S2 |
| C86_last_point_refuted | P_Plot.v | S2 |
| C61_entries | P_Predef.v | S4 |
| C61_minkowski_flat | P_Predef.v | S4 |
| C61_minkowski_polar_flat | P_Predef.v | S4 |
| C61_ads_static_einstein | P_Predef.v | S4 |
| C61_ads_einstein | P_Predef.v | S4 |
| C62_schwarzschild_vacuum | P_Predef.v | S4 |
| C63_coded | P_Predef.v | S4 |
| C63_documented | P_Predef.v | S4 |
| C63_de_sitter_refuted | P_Predef.v | S4 |
| C64_kerr_newman_kerr | P_Predef.v | S4 |
| C64_kerr_schwarzschild | P_Predef.v | S4 |
| C64_rn_schwarzschild | P_Predef.v | S4 |
| C64_kerr_newman_rn | P_Predef.v | S4 |
| C64_symmetric | P_Predef.v | S3 |
| C64_barriola_minkowski | P_Predef.v | S4 |
| C64_ernst_schwarzschild | P_Predef.v | S4 |
| C64_jnw_components | P_Predef.v | S4 |
| C64_jnw_schwarzschild | P_Predef.v | S4 |
| C64_jnw_refuted | P_Predef.v | S4 |
| C65_on_axis | P_Predef.v | S4 |
| C65_exactly_where | P_Predef.v | S4 |
| C65_metric | P_Predef.v | S4 |
| C65_shape_function | P_Predef.v | S4 |
| C65_one_at_the_ship | P_Predef.v | S4 |
| C65_radius_refuted | P_Predef.v | S4 |
| C79_kerr_vacuum | P_Predef.v | S4 |
| C80_rn_ricci | P_Predef.v | S4 |
| C80_rn_scalar | P_Predef.v | S4 |
| C80_kn_ricci | P_Predef.v | S4 |
| C80_kn_scalar | P_Predef.v | S4 |
| C80_kn_rainich | P_Predef.v | S4 |
| C81_barriola | P_Predef.v | S4 |
| C81_bertotti_kasner | P_Predef.v | S4 |
| C81_godel | P_Predef.v | S4 |
| C81_davidson | P_Predef.v | S4 |
| C81_cmetric | P_Predef.v | S4 |
| C81_ernst_scalar | P_Predef.v | S4 |
| C81_ernst_pairs | P_Predef.v | S4 |
| C82_jnw_ricci | P_Predef.v | S4 |
| C82_jnw_scalar_field | P_Predef.v | S4 |
| C82_jnw_refuted | P_Predef.v | S4 |
| C16_history | P_RK.v | S2 |
| C16_quadrature | P_RK.v | S2 |
| C16_antiderivative | P_RK.v | S4 |
| C16_linear_systems | P_RK.v | S2 |
| C16_exponential | P_RK.v | S2 |
| C17_t_bound_refuted | P_RK.v | S2 |
| C17_never_stops | P_RK.v | S2 |
| C17_overshoots | P_RK.v | S2 |
| C18_finished_solver | P_RK.v | S2 |
| C18_never_runtime_error | P_RK.v | S2 |
| C18_escapes_only_rhs | P_RK.v | S2 |
| C18_warns_iff | P_RK.v | S2 |
| C18_defaults | P_RK.v | S2 |
| C91_local_error | P_RK.v | S4 |
| C91_program_rhs | P_RK.v | S4 |
| C91_programs_are_smooth | P_RK.v | S4 |
| C91_solutions_are_smooth | P_RK.v | S4 |
| C92_global_convergence | P_RK.v | S4 |
| C92_program_rhs | P_RK.v | S4 |
| C44_christoffel | P_Sym.v | S0 |
| C44_singular | P_Sym.v | S0 |
| C44_covariant_metric | P_Sym.v | S0 |
| C44_contravariant_metric | P_Sym.v | S0 |
| C44_metric_pair | P_Sym.v | S0 |
| C44_contravariant_nonvacuous | P_Sym.v | S4 |
| C45_riemann_formula | P_Sym.v | S0 |
| C45_riemann_symmetries | P_Sym.v | S0 |
| C45_second_bianchi | P_Sym.v | S0 |
| C46_ricci_scalar | P_Sym.v | S0 |
| C46_constructors_agree | P_Sym.v | S0 |
| C47_einstein | P_Sym.v | S0 |
| C48_stress_energy | P_Sym.v | S0 |
| C49_weyl | P_Sym.v | S0 |
| C49_weyl_dim3 | P_Sym.v | S0 |
| C49_weyl_low | P_Sym.v | S0 |
| C50_schouten | P_Sym.v | S0 |
| C50_schouten_low | P_Sym.v | S0 |
| C44_laws_nonvacuous | P_Sym.v | S4 |
| C44_metric_nonvacuous | P_Sym.v | S4 |
| C44_metric_nonflat | P_Sym.v | S4 |
| C129_get_constant | P_SymConst.v | S0 |
| C129_get_constant_names | P_SymConst.v | S0 |
| C129_get_constant_error | P_SymConst.v | S0 |
| C129_construction | P_SymConst.v | S0 |
| C129_equal | P_SymConst.v | S0 |
| C129_distinct | P_SymConst.v | S0 |
| C129_distinct_assumptions | P_SymConst.v | S0 |
| C129_descriptions_kept | P_SymConst.v | S0 |
| C129_last_description | P_SymConst.v | S0 |
| C129_overwrites | P_SymConst.v | S0 |
| C129_description_refuted | P_SymConst.v | S0 |
| C96_rotate | P_Symm.v | S4 |
| C96_mirror | P_Symm.v | S4 |
| C96_rotate_any_metric | P_Symm.v | S4 |
| C96_mirror_any_metric | P_Symm.v | S4 |
| C96_trajectory_shift | P_Symm.v | S4 |
| C96_t_phi_reversal | P_Symm.v | S4 |
| C96_named_metrics_are_circular | P_Symm.v | S4 |
| C96_momentum_reversal | P_Symm.v | S4 |
| C96_trajectory_rotate | P_Symm.v | S4 |
| C96_trajectory_mirror | P_Symm.v | S4 |
| C97_exact_constant | P_Symm.v | S4 |
| C97_drift | P_Symm.v | S4 |
| C98_equatorial | P_Symm.v | S4 |
| C98_equatorial_any_metric | P_Symm.v | S4 |
| C98_radial | P_Symm.v | S4 |
| C98_radial_any_metric | P_Symm.v | S4 |
| C98_precession_example | P_Symm.v | S4 |
| C99_circular | P_Symm.v | S4 |
| C99_schwarzschild | P_Symm.v | S4 |
| C99_photon_sphere | P_Symm.v | S4 |
| C99_radial_light | P_Symm.v | S4 |
| C99_exact | P_Symm.v | S4 |
| C99_built_in | P_Symm.v | S4 |
| C99_schwarzschild_data | P_Symm.v | S3 |
| C51_change_config | P_Tensor.v | S0 |
| C51_one_slot | P_Tensor.v | S0 |
| C51_compose | P_Tensor.v | S0 |
| C51_round_trip | P_Tensor.v | S0 |
| C51_bad_config | P_Tensor.v | S0 |
| C51_no_metric | P_Tensor.v | S0 |
| C51_checker | P_Tensor.v | S0 |
| C51_nonvacuous | P_Tensor.v | S4 |
| C52_outer | P_Tensor.v | S0 |
| C52_contract | P_Tensor.v | S0 |
| C52_range | P_Tensor.v | S0 |
| C53_one_index | P_Tensor.v | S0 |
| C53_one_index_refuted | P_Tensor.v | S0 |
| C54_lorentz | P_Tensor.v | S0 |
| C54_metric_preserved | P_Tensor.v | S0 |
| C54_inverse_metric_preserved | P_Tensor.v | S0 |
| C54_identity | P_Tensor.v | S0 |
| C54_nonvacuous | P_Tensor.v | S4 |
| C55_contraction | P_Tensor.v | S0 |
| C55_invariant_iff | P_Tensor.v | S0 |
| C55_contraction_refuted | P_Tensor.v | S4 |
| C56_inv | P_Tensor.v | S0 |
| C56_same_object | P_Tensor.v | S0 |
| C56_inv_inv | P_Tensor.v | S0 |
| C56_inv_inv_value | P_Tensor.v | S0 |
| C56_inv_inv_object_refuted | P_Tensor.v | S0 |
| C56_lower | P_Tensor.v | S0 |
| C56_change_config | P_Tensor.v | S0 |
| C56_objects_persist | P_Tensor.v | S0 |
| C56_singular | P_Tensor.v | S0 |
| C56_mixed_lower_refuted | P_Tensor.v | S0 |
| C56_nonvacuous | P_Tensor.v | S4 |
| C57_tensor | P_Tensor.v | S0 |
| C57_errors | P_Tensor.v | S0 |
| C57_base | P_Tensor.v | S0 |
| C57_subclasses | P_Tensor.v | S0 |
| C57_subclasses_bad | P_Tensor.v | S0 |
| C58_subs | P_Tensor.v | S0 |
| C58_config_refuted | P_Tensor.v | S0 |
| C59_reciprocal | P_Tensor.v | S0 |
| C59_two | P_Tensor.v | S0 |
| C59_symmetric | P_Tensor.v | S0 |
| C59_one | P_Tensor.v | S0 |
| C59_inverse_refuted | P_Tensor.v | S4 |
| C60_flatten | P_Tensor.v | S0 |
| C60_each_index_once | P_Tensor.v | S0 |
| C60_count | P_Tensor.v | S0 |
| C60_position | P_Tensor.v | S0 |
| C60_simplify | P_Tensor.v | S0 |
| C90_history | P_Tensor.v | S0 |
| C90_stress_energy_class | P_Tensor.v | S0 |
| C90_stress_energy_refuted | P_Tensor.v | S4 |
| C90_metric_histories | P_Tensor.v | S0 |
| C90_base_and_scalar | P_Tensor.v | S0 |
| C90_no_metric_raises | P_Tensor.v | S0 |
| C90_lorentz_forgets_metric | P_Tensor.v | S0 |
| C90_lorentz_never_fails | P_Tensor.v | S0 |
| C90_change_config_succeeds | P_Tensor.v | S0 |
| C90_defaults_fit | P_Tensor.v | S0 |
| C90_nonvacuous | P_Tensor.v | S4 |
| C100_metric | P_Unify.v | S3 |
| C100_christoffels | P_Unify.v | S3 |
| C100_equations_of_motion | P_Unify.v | S3 |
| C100_equations_of_motion_back | P_Unify.v | S3 |
| C100_singularities | P_Unify.v | S3 |
| C101_exact_difference | P_Unify.v | S3 |
| C101_agree_iff | P_Unify.v | S3 |
| C101_same_motion_refuted | P_Unify.v | S4 |
| C94_published_metric_is_vacuum | P_Wave.v | S4 |
| C94_code_ricci | P_Wave.v | S4 |
| C94_code_ricci_terms | P_Wave.v | S4 |
| C94_vacuum_refuted | P_Wave.v | S4 |
