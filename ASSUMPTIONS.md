# Axioms listed by Print Assumptions

Generated by tools/assumptions.py. Full names:

* `ClassicalDedekindReals.sig_forall_dec`
* `ClassicalDedekindReals.sig_not_dec`
* `Classical_Prop.classic`
* `FunctionalExtensionality.functional_extensionality_dep`

| theorem | axioms |
|---|---|
| C01_composite | sig_forall_dec, sig_not_dec, functional_extensionality_dep |
| C01_forces_are_gradient | sig_forall_dec, sig_not_dec, classic, functional_extensionality_dep |
| C02_azimuthal | sig_forall_dec, sig_not_dec, classic, functional_extensionality_dep |
| C02_composite | sig_forall_dec, sig_not_dec, functional_extensionality_dep |
| C02_meridional | sig_forall_dec, sig_not_dec, classic, functional_extensionality_dep |
| C03_densities_agree | sig_forall_dec, sig_not_dec, classic, functional_extensionality_dep |
| C03_density | sig_forall_dec, sig_not_dec, classic, functional_extensionality_dep |
| C03_forcepoisson | sig_forall_dec, sig_not_dec, classic, functional_extensionality_dep |
| C04_forceint | sig_forall_dec, sig_not_dec, classic, functional_extensionality_dep |
| C04_mass_centre | sig_forall_dec, sig_not_dec, classic, functional_extensionality_dep |
| C04_mass_derivative | sig_forall_dec, sig_not_dec, classic, functional_extensionality_dep |
| C04_mass_is_force | sig_forall_dec, sig_not_dec, classic, functional_extensionality_dep |
| C05_add | sig_forall_dec, sig_not_dec, functional_extensionality_dep |
| C05_list | sig_forall_dec, sig_not_dec, functional_extensionality_dep |
| C05_mul | sig_forall_dec, sig_not_dec, functional_extensionality_dep |
| C05_mul_div | sig_forall_dec, sig_not_dec, functional_extensionality_dep |
| C05_normalized_refuted | sig_forall_dec, sig_not_dec, classic, functional_extensionality_dep |
| C06_idempotent | none (closed under the global context) |
| C06_no_nesting | none (closed under the global context) |
| C06_reading_order | none (closed under the global context) |
| C06_same_values | sig_forall_dec, sig_not_dec, functional_extensionality_dep |
| C07_add_checked | sig_forall_dec, functional_extensionality_dep |
| C07_add_refused | sig_forall_dec, functional_extensionality_dep |
| C07_members_agree_partial | sig_forall_dec, functional_extensionality_dep |
| C07_members_agree_refuted | sig_forall_dec, functional_extensionality_dep |
| C07_setitem_refuted | sig_forall_dec, functional_extensionality_dep |
| C08_catalog_is_smooth | sig_forall_dec, sig_not_dec, classic, functional_extensionality_dep |
| C08_composite_is_smooth | sig_forall_dec, sig_not_dec, classic, functional_extensionality_dep |
| C08_corotating_rotation | sig_forall_dec, sig_not_dec, classic, functional_extensionality_dep |
| C08_cylindrically_separable | sig_forall_dec, sig_not_dec, functional_extensionality_dep |
| C08_dehnen_smooth | sig_forall_dec, sig_not_dec, functional_extensionality_dep |
| C08_gaussian_amplitude | sig_forall_dec, sig_not_dec, functional_extensionality_dep |
| C08_kuzmin_like | sig_forall_dec, sig_not_dec, classic, functional_extensionality_dep |
| C08_kuzmin_like_physical_refuted | sig_forall_dec, sig_not_dec, classic, functional_extensionality_dep |
| C08_moving_object | sig_forall_dec, sig_not_dec, classic, functional_extensionality_dep |
| C08_rotate_and_tilt | sig_forall_dec, sig_not_dec, classic, functional_extensionality_dep |
| C08_smooth_implies_derivatives | sig_forall_dec, functional_extensionality_dep |
| C08_solid_body_rotation | sig_forall_dec, sig_not_dec, functional_extensionality_dep |
| C08_time_dependent_amplitude | sig_forall_dec, sig_not_dec, functional_extensionality_dep |
| C09_between_0_and_1 | sig_forall_dec, functional_extensionality_dep |
| C09_continuously_differentiable | sig_forall_dec, sig_not_dec, classic, functional_extensionality_dep |
| C09_decay_is_complement | sig_forall_dec, functional_extensionality_dep |
| C09_default_tsteady_refuted | sig_forall_dec, functional_extensionality_dep |
| C09_monotone | sig_forall_dec, functional_extensionality_dep |
| C09_off_before_on_after | sig_forall_dec, functional_extensionality_dep |
| C10_every_history | sig_forall_dec, sig_not_dec, functional_extensionality_dep |
| C10_function_mismatch_refuted | sig_forall_dec, sig_not_dec, functional_extensionality_dep |
| C10_inertial_motion | sig_forall_dec, sig_not_dec, classic, functional_extensionality_dep |
| C10_list_refuted | sig_forall_dec, sig_not_dec, functional_extensionality_dep |
| C10_offset_origin_refuted | sig_forall_dec, sig_not_dec, functional_extensionality_dep |
| C10_omitted_derivative | sig_forall_dec, sig_not_dec, classic, functional_extensionality_dep |
| C10_rate_derivative | sig_forall_dec, sig_not_dec, classic, functional_extensionality_dep |
| C10_shape_mismatch_refuted | sig_forall_dec, sig_not_dec, functional_extensionality_dep |
| C11_catalogue_axisymmetric | sig_forall_dec, sig_not_dec, classic, functional_extensionality_dep |
| C11_dissipative_identity_refuted | sig_forall_dec |
| C11_normalised_planar_refuted | sig_forall_dec, sig_not_dec, classic, functional_extensionality_dep |
| C11_normalised_vertical_refuted | sig_forall_dec, sig_not_dec, classic, functional_extensionality_dep |
| C11_planar | sig_forall_dec, sig_not_dec, functional_extensionality_dep |
| C11_planar_forces | sig_forall_dec, sig_not_dec, classic, functional_extensionality_dep |
| C11_planar_idempotent | sig_forall_dec |
| C11_planar_identity | sig_forall_dec |
| C11_planar_list | sig_forall_dec, sig_not_dec, functional_extensionality_dep |
| C11_planar_rejects_linear | none (closed under the global context) |
| C11_vertical | sig_forall_dec, functional_extensionality_dep |
| C11_vertical_force | sig_forall_dec, sig_not_dec, classic, functional_extensionality_dep |
| C11_vertical_rejects | sig_forall_dec |
| C11_vertical_succeeds | sig_forall_dec |
| C12_catalogue | sig_forall_dec, sig_not_dec, classic, functional_extensionality_dep |
| C12_dvcircdR | sig_forall_dec, sig_not_dec, functional_extensionality_dep |
| C12_epifreq | sig_forall_dec, sig_not_dec, classic, functional_extensionality_dep |
| C12_epifreq_omega | sig_forall_dec, sig_not_dec, classic, functional_extensionality_dep |
| C12_flattening | sig_forall_dec, sig_not_dec, classic, functional_extensionality_dep |
| C12_function_dvcircdR | sig_forall_dec, sig_not_dec, functional_extensionality_dep |
| C12_function_dvcircdR_refuted | sig_forall_dec, sig_not_dec, classic, functional_extensionality_dep |
| C12_function_normalized_refuted | sig_forall_dec, sig_not_dec, classic, functional_extensionality_dep |
| C12_function_omegac | sig_forall_dec, sig_not_dec, functional_extensionality_dep |
| C12_function_vcirc | sig_forall_dec, sig_not_dec, functional_extensionality_dep |
| C12_omegac | sig_forall_dec, sig_not_dec, functional_extensionality_dep |
| C12_radial | sig_forall_dec, sig_not_dec, classic, functional_extensionality_dep |
| C12_rtide | sig_forall_dec, sig_not_dec, classic, functional_extensionality_dep |
| C12_tidal_refused | sig_forall_dec, sig_not_dec, functional_extensionality_dep |
| C12_tidal_symmetric_trace | sig_forall_dec, sig_not_dec, functional_extensionality_dep |
| C12_tidal_tensor | sig_forall_dec, sig_not_dec, classic, functional_extensionality_dep |
| C12_vcirc | sig_forall_dec, sig_not_dec, functional_extensionality_dep |
| C12_verticalfreq | sig_forall_dec, sig_not_dec, functional_extensionality_dep |
| C12_vterm | sig_forall_dec, sig_not_dec, functional_extensionality_dep |
| C13_bound_orbit_refuted | sig_forall_dec, sig_not_dec, functional_extensionality_dep |
| C13_circular_angular_momentum | sig_forall_dec, sig_not_dec, functional_extensionality_dep |
| C13_circular_angular_momentum_refuted | sig_forall_dec, sig_not_dec, classic, functional_extensionality_dep |
| C13_circular_radius_bracket | sig_forall_dec, sig_not_dec, functional_extensionality_dep |
| C13_circular_radius_found | sig_forall_dec, sig_not_dec, functional_extensionality_dep |
| C13_corotation_bracket | sig_forall_dec, sig_not_dec, functional_extensionality_dep |
| C13_corotation_found | sig_forall_dec, sig_not_dec, functional_extensionality_dep |
| C13_corotation_none | sig_forall_dec, sig_not_dec, functional_extensionality_dep |
| C13_guiding_radius_bracket | sig_forall_dec, sig_not_dec, functional_extensionality_dep |
| C13_guiding_radius_exact | sig_forall_dec, sig_not_dec, functional_extensionality_dep |
| C13_guiding_radius_found | sig_forall_dec, sig_not_dec, functional_extensionality_dep |
| C13_half_mass_radius | sig_forall_dec, functional_extensionality_dep |
| C13_lindblad | sig_forall_dec, sig_not_dec, functional_extensionality_dep |
| C13_lindblad_complete_refuted | sig_forall_dec, sig_not_dec, classic, functional_extensionality_dep |
| C13_near_circular_refuted | sig_forall_dec, sig_not_dec, functional_extensionality_dep |
| C13_peri_apo | sig_forall_dec, sig_not_dec, classic, functional_extensionality_dep |
| C13_u_range | sig_forall_dec, functional_extensionality_dep |
| C13_u_range_turning | sig_forall_dec, functional_extensionality_dep |
| C13_v_range | sig_forall_dec, functional_extensionality_dep |
| C13_zvc | sig_forall_dec, functional_extensionality_dep |
| C13_zvc_found | sig_forall_dec, functional_extensionality_dep |
| C13_zvc_range | sig_forall_dec, sig_not_dec, functional_extensionality_dep |
| C13_zvc_range_found | sig_forall_dec, sig_not_dec, functional_extensionality_dep |
| C13_zvc_terminates | sig_forall_dec, functional_extensionality_dep |
| C14_cyl_meaning | sig_forall_dec, sig_not_dec, classic, functional_extensionality_dep |
| C14_cyl_rect_cyl | sig_forall_dec, sig_not_dec, classic, functional_extensionality_dep |
| C14_cyl_spher_cyl | sig_forall_dec, sig_not_dec, classic, functional_extensionality_dep |
| C14_rect_cyl_rect | sig_forall_dec, sig_not_dec, classic, functional_extensionality_dep |
| C14_spher_cyl_spher | sig_forall_dec, sig_not_dec, classic, functional_extensionality_dep |
| C14_spher_meaning | sig_forall_dec, sig_not_dec, classic, functional_extensionality_dep |
| C15_cyl_components_are_rates | sig_forall_dec, sig_not_dec, classic, functional_extensionality_dep |
| C15_cyl_rect_cyl | sig_forall_dec, sig_not_dec, classic, functional_extensionality_dep |
| C15_cyl_speed | sig_forall_dec, sig_not_dec, functional_extensionality_dep |
| C15_cyl_spher_cyl | sig_forall_dec, sig_not_dec, classic, functional_extensionality_dep |
| C15_rect_cyl_rect | sig_forall_dec, sig_not_dec, classic, functional_extensionality_dep |
| C15_rectgal_roundtrip | sig_forall_dec, sig_not_dec, classic, functional_extensionality_dep |
| C15_spher_components_are_rates | sig_forall_dec, sig_not_dec, classic, functional_extensionality_dep |
| C15_spher_cyl_spher | sig_forall_dec, sig_not_dec, functional_extensionality_dep |
| C15_spher_speed | sig_forall_dec, sig_not_dec, functional_extensionality_dep |
| C15_sphergal_roundtrip | sig_forall_dec, sig_not_dec, classic, functional_extensionality_dep |
| C15_vrpm_XYZ_meaning | sig_forall_dec, sig_not_dec, classic, functional_extensionality_dep |
| C15_vrpm_XYZ_roundtrip | sig_forall_dec, sig_not_dec, classic, functional_extensionality_dep |
| C15_vrpm_meaning | sig_forall_dec, sig_not_dec, classic, functional_extensionality_dep |
| C15_vrpm_roundtrip | sig_forall_dec, sig_not_dec, classic, functional_extensionality_dep |
| C15_vrpm_speed | sig_forall_dec, sig_not_dec, classic, functional_extensionality_dep |
| C15_vxyz_roundtrip | sig_forall_dec, sig_not_dec, classic, functional_extensionality_dep |
| C16_XYZ_lbd_XYZ | sig_forall_dec, sig_not_dec, classic, functional_extensionality_dep |
| C16_custom_direction | sig_forall_dec, sig_not_dec, classic, functional_extensionality_dep |
| C16_custom_pm_roundtrip | sig_forall_dec, sig_not_dec, classic, functional_extensionality_dep |
| C16_custom_pm_same_motion | sig_forall_dec, sig_not_dec, classic, functional_extensionality_dep |
| C16_custom_roundtrip | sig_forall_dec, sig_not_dec, classic, functional_extensionality_dep |
| C16_galactic_frame | sig_forall_dec, sig_not_dec, functional_extensionality_dep |
| C16_lb_radec_lb | sig_forall_dec, sig_not_dec, classic, functional_extensionality_dep |
| C16_lb_to_radec_direction | sig_forall_dec, sig_not_dec, classic, functional_extensionality_dep |
| C16_lbd_XYZ_lbd | sig_forall_dec, sig_not_dec, classic, functional_extensionality_dep |
| C16_lbd_meaning | sig_forall_dec, sig_not_dec, functional_extensionality_dep |
| C16_pm_magnitude | sig_forall_dec, sig_not_dec, classic, functional_extensionality_dep |
| C16_pm_roundtrip | sig_forall_dec, sig_not_dec, classic, functional_extensionality_dep |
| C16_pm_same_motion | sig_forall_dec, sig_not_dec, classic, functional_extensionality_dep |
| C16_radec_lb_radec | sig_forall_dec, sig_not_dec, classic, functional_extensionality_dep |
| C16_radec_to_lb_direction | sig_forall_dec, sig_not_dec, classic, functional_extensionality_dep |
| C17_any_solar_position_refuted | sig_forall_dec, sig_not_dec, functional_extensionality_dep |
| C17_cylindrical_roundtrip | sig_forall_dec, sig_not_dec, classic, functional_extensionality_dep |
| C17_cylindrical_velocity_roundtrip | sig_forall_dec, sig_not_dec, classic, functional_extensionality_dep |
| C17_distances | sig_forall_dec, sig_not_dec, functional_extensionality_dep |
| C17_extra_rot_residual | sig_forall_dec, sig_not_dec, functional_extensionality_dep |
| C17_position_roundtrip | sig_forall_dec, sig_not_dec, functional_extensionality_dep |
| C17_rectangular_position_velocity_roundtrip | sig_forall_dec, sig_not_dec, classic, functional_extensionality_dep |
| C17_solar_motion | sig_forall_dec, sig_not_dec, functional_extensionality_dep |
| C17_sun_and_centre | sig_forall_dec, sig_not_dec, functional_extensionality_dep |
| C17_velocity_is_rate | sig_forall_dec, sig_not_dec, functional_extensionality_dep |
| C17_velocity_roundtrip | sig_forall_dec, sig_not_dec, functional_extensionality_dep |
| C18_lambdanu_confocal | sig_forall_dec, sig_not_dec, functional_extensionality_dep |
| C18_lambdanu_onto | sig_forall_dec, sig_not_dec, functional_extensionality_dep |
| C18_lambdanu_ordering | sig_forall_dec, sig_not_dec, functional_extensionality_dep |
| C18_lambdanu_roundtrip | sig_forall_dec, sig_not_dec, functional_extensionality_dep |
| C18_momenta_conjugate | sig_forall_dec, sig_not_dec, classic, functional_extensionality_dep |
| C18_momenta_position_forms | sig_forall_dec, sig_not_dec, classic, functional_extensionality_dep |
| C18_momenta_roundtrip | sig_forall_dec, sig_not_dec, classic, functional_extensionality_dep |
| C18_oblate_Rz_uv_Rz | sig_forall_dec, sig_not_dec, classic, functional_extensionality_dep |
| C18_oblate_below_plane_refuted | sig_forall_dec, sig_not_dec, classic, functional_extensionality_dep |
| C18_oblate_uv_Rz_uv | sig_forall_dec, sig_not_dec, classic, functional_extensionality_dep |
| C18_prolate_Rz_uv_Rz | sig_forall_dec, sig_not_dec, classic, functional_extensionality_dep |
| C18_prolate_uv_Rz_uv | sig_forall_dec, sig_not_dec, classic, functional_extensionality_dep |
| C19_XYZ_to_lbd | sig_forall_dec, sig_not_dec, classic, functional_extensionality_dep |
| C19_XYZ_to_lbd_phase_space | sig_forall_dec, sig_not_dec, classic, functional_extensionality_dep |
| C19_cyl_to_rect | sig_forall_dec, sig_not_dec, classic, functional_extensionality_dep |
| C19_cyl_to_rect_phase_space | sig_forall_dec, sig_not_dec, classic, functional_extensionality_dep |
| C19_galcenrect_to_XYZ_partial | sig_forall_dec, sig_not_dec, classic, functional_extensionality_dep |
| C19_galcenrect_to_XYZ_phase_space_partial | sig_forall_dec, sig_not_dec, classic, functional_extensionality_dep |
| C19_galcenrect_to_XYZ_refuted | sig_forall_dec, sig_not_dec, classic, functional_extensionality_dep |
| C19_galcenrect_to_galcencyl | sig_forall_dec, sig_not_dec, classic, functional_extensionality_dep |
| C19_galsky_to_sky_partial | sig_forall_dec, sig_not_dec, classic, functional_extensionality_dep |
| C19_galsky_to_sky_refuted | sig_forall_dec, sig_not_dec, classic, functional_extensionality_dep |
| C19_lambdanu | sig_forall_dec, sig_not_dec, classic, functional_extensionality_dep |
| C19_lambdanu_hessian | sig_forall_dec, sig_not_dec, classic, functional_extensionality_dep |
| C19_lbd_to_XYZ | sig_forall_dec, sig_not_dec, classic, functional_extensionality_dep |
| C19_lbd_to_XYZ_phase_space | sig_forall_dec, sig_not_dec, classic, functional_extensionality_dep |
| C19_sky_to_customsky | sig_forall_dec, sig_not_dec, classic, functional_extensionality_dep |
| C20_galcenrect_partial | sig_forall_dec, sig_not_dec, classic, functional_extensionality_dep |
| C20_galcenrect_refuted | sig_forall_dec, sig_not_dec, classic, functional_extensionality_dep |
| C20_proper_motion | sig_forall_dec, sig_not_dec, classic, functional_extensionality_dep |
| C20_proper_motion_psd | sig_forall_dec, sig_not_dec, functional_extensionality_dep |
| C20_rect_to_cyl | sig_forall_dec, sig_not_dec, classic, functional_extensionality_dep |
| C20_samples_cover | sig_forall_dec, functional_extensionality_dep |
| C20_space_velocity | sig_forall_dec, sig_not_dec, classic, functional_extensionality_dep |
| C20_space_velocity_psd | sig_forall_dec, sig_not_dec, functional_extensionality_dep |
| C21_amplitude | sig_forall_dec, functional_extensionality_dep |
| C21_critical | sig_forall_dec, sig_not_dec, functional_extensionality_dep |
| C21_force_10m13_refuted | sig_forall_dec, functional_extensionality_dep |
| C21_gevcc | sig_forall_dec, functional_extensionality_dep |
| C21_kinds_complete | sig_forall_dec, sig_not_dec, functional_extensionality_dep |
| C21_laws | sig_forall_dec, sig_not_dec, classic, functional_extensionality_dep |
| C21_other_factors | sig_forall_dec, sig_not_dec, functional_extensionality_dep |
| C21_output | sig_forall_dec, sig_not_dec, functional_extensionality_dep |
| C21_output_number | sig_forall_dec, sig_not_dec, functional_extensionality_dep |
| C21_parse | sig_forall_dec, sig_not_dec, functional_extensionality_dep |
| C21_parse_refuses | sig_forall_dec, sig_not_dec, functional_extensionality_dep |
| C21_round_trip | sig_forall_dec, sig_not_dec, functional_extensionality_dep |
| C21_scale_free | sig_forall_dec, sig_not_dec, functional_extensionality_dep |
| C22_decision | sig_forall_dec, functional_extensionality_dep |
| C22_flags | none (closed under the global context) |
| C22_history | sig_forall_dec, functional_extensionality_dep |
| C22_history_output | sig_forall_dec, functional_extensionality_dep |
| C22_init | sig_forall_dec, functional_extensionality_dep |
| C22_no_missing_scale | sig_forall_dec, sig_not_dec, functional_extensionality_dep |
| C22_one_scale | sig_forall_dec, sig_not_dec, functional_extensionality_dep |
| C22_one_scale_refuted | sig_forall_dec, sig_not_dec, functional_extensionality_dep |
| C22_returned | sig_forall_dec, sig_not_dec, functional_extensionality_dep |
| C22_scale_unique | sig_forall_dec, functional_extensionality_dep |
| C23_continuation_refuted | sig_forall_dec, functional_extensionality_dep |
| C23_evaluation_commutes | sig_forall_dec, sig_not_dec, classic, functional_extensionality_dep |
| C23_getitem | none (closed under the global context) |
| C23_getitem_succeeds | none (closed under the global context) |
| C23_reshape | none (closed under the global context) |
| C23_scales_refuted | sig_forall_dec, functional_extensionality_dep |
| C24_close_times_refuted | sig_forall_dec, functional_extensionality_dep |
| C24_failed_continuation_refuted | sig_forall_dec, functional_extensionality_dep |
| C24_history | sig_forall_dec, functional_extensionality_dep |
| C24_history_changing_potential | sig_forall_dec, functional_extensionality_dep |
| C24_next_call | sig_forall_dec, functional_extensionality_dep |
| C24_restart | sig_forall_dec, functional_extensionality_dep |
| C25_check_c | none (closed under the global context) |
| C25_dxdv | none (closed under the global context) |
| C25_ias15_refuted | none (closed under the global context) |
| C25_integrate | none (closed under the global context) |
| C25_isDissipative | none (closed under the global context) |
| C25_refuses_unknown | none (closed under the global context) |
| C25_sos | none (closed under the global context) |
| C25_upper_case_refuted | none (closed under the global context) |
| C25_velocities_passed | none (closed under the global context) |
| C26_inverse | sig_forall_dec, functional_extensionality_dep |
| C26_leapfrog_is_composition | sig_forall_dec, sig_not_dec, functional_extensionality_dep |
| C26_reversed_grid | sig_forall_dec, sig_not_dec, functional_extensionality_dep |
| C26_symplectic | sig_forall_dec, sig_not_dec, functional_extensionality_dep |
| C26_symplectic_rows | sig_forall_dec, sig_not_dec, functional_extensionality_dep |
| C26_velocity_reversal | sig_forall_dec, functional_extensionality_dep |
| C27_c_estimate_terminates | sig_forall_dec, functional_extensionality_dep |
| C27_c_steps_divide | sig_forall_dec, functional_extensionality_dep |
| C27_given_step_truncated_refuted | sig_forall_dec, functional_extensionality_dep |
| C27_given_step_wrong_sign_refuted | sig_forall_dec, functional_extensionality_dep |
| C27_python_estimate_fuel | sig_forall_dec, functional_extensionality_dep |
| C27_python_estimate_terminates | sig_forall_dec, functional_extensionality_dep |
| C27_reduction_limit_refuted | sig_forall_dec, functional_extensionality_dep |
| C27_rows_cover_grid | sig_forall_dec, sig_not_dec, functional_extensionality_dep |
| C27_uneven_grid_refuted | sig_forall_dec, sig_not_dec, functional_extensionality_dep |
| C28_coefficient_sums | sig_forall_dec, functional_extensionality_dep |
| C28_exact_sums_refuted | sig_forall_dec, functional_extensionality_dep |
| C28_inverse | sig_forall_dec, functional_extensionality_dep |
| C28_leapfrog_is_composition | sig_forall_dec, functional_extensionality_dep |
| C28_palindromes | sig_forall_dec, functional_extensionality_dep |
| C28_symplec4_is_composition | sig_forall_dec, functional_extensionality_dep |
| C28_symplec6_is_composition | sig_forall_dec, functional_extensionality_dep |
| C28_symplectic | sig_forall_dec, sig_not_dec, functional_extensionality_dep |
| C28_time_drift | sig_forall_dec, functional_extensionality_dep |
| C28_velocity_reversal | sig_forall_dec, functional_extensionality_dep |
| C29_angular_momentum_conserved | sig_forall_dec, sig_not_dec, classic, functional_extensionality_dep |
| C29_axisymmetric_potential_torque | sig_forall_dec, sig_not_dec, classic, functional_extensionality_dep |
| C29_centre_of_mass_uniform | sig_forall_dec, sig_not_dec, classic, functional_extensionality_dep |
| C29_coincident_particles_refuted | sig_forall_dec, sig_not_dec, classic, functional_extensionality_dep |
| C29_force_is_gradient | sig_forall_dec, sig_not_dec, classic, functional_extensionality_dep |
| C29_momentum_conserved | sig_forall_dec, sig_not_dec, classic, functional_extensionality_dep |
| C29_relabelling | sig_forall_dec, sig_not_dec, classic, functional_extensionality_dep |
| C29_reversible | sig_forall_dec, sig_not_dec, classic, functional_extensionality_dep |
| C29_rows_are_leapfrog | sig_forall_dec, sig_not_dec, classic, functional_extensionality_dep |
| C29_test_particles | sig_forall_dec, sig_not_dec, classic, functional_extensionality_dep |
| C29_uneven_grid_refuted | sig_forall_dec, sig_not_dec, classic, functional_extensionality_dep |
| C30_chunks | none (closed under the global context) |
| C30_complete | none (closed under the global context) |
| C30_each_step_progresses | none (closed under the global context) |
| C30_empty_sequence_refuted | none (closed under the global context) |
| C30_exception_genuine | none (closed under the global context) |
| C30_exception_raised | none (closed under the global context) |
| C30_killed_worker | none (closed under the global context) |
| C30_result_is_map | none (closed under the global context) |
| C30_single_element_refuted | none (closed under the global context) |
| C30_terminates | none (closed under the global context) |
| C31_complete_stays | none (closed under the global context) |
| C31_completes | none (closed under the global context) |
| C31_failure_keeps_old | none (closed under the global context) |
| C31_interrupt_before_open_refuted | none (closed under the global context) |
| C31_old_or_complete | none (closed under the global context) |
| C31_other_filesystem_refuted | none (closed under the global context) |
| C31_return_means_saved | none (closed under the global context) |
| C31_temporary_left_refuted | none (closed under the global context) |
| C32_check_config | none (closed under the global context) |
| C32_failed_write_refuted | none (closed under the global context) |
| C32_fix_config | none (closed under the global context) |
| C32_fix_idempotent | none (closed under the global context) |
| C32_import | none (closed under the global context) |
| C32_percent_refuted | none (closed under the global context) |
| C32_record_check | none (closed under the global context) |
| C32_set_ro_vo | none (closed under the global context) |
| C32_unknown_settings_refuted | none (closed under the global context) |
| C33_action | sig_forall_dec, functional_extensionality_dep |
| C33_canonical | sig_forall_dec, sig_not_dec, classic, functional_extensionality_dep |
| C33_forward_of_inverse | sig_forall_dec, sig_not_dec, classic, functional_extensionality_dep |
| C33_inverse_moves | sig_forall_dec, sig_not_dec, classic, functional_extensionality_dep |
| C33_inverse_of_forward | sig_forall_dec, sig_not_dec, classic, functional_extensionality_dep |
| C33_motion | sig_forall_dec, sig_not_dec, classic, functional_extensionality_dep |
| C34_circular_Jr | sig_forall_dec, sig_not_dec, functional_extensionality_dep |
| C34_circular_angles_refuted | sig_forall_dec, sig_not_dec, classic, functional_extensionality_dep |
| C34_energy | sig_forall_dec, sig_not_dec, functional_extensionality_dep |
| C34_freqs | sig_forall_dec, sig_not_dec, classic, functional_extensionality_dep |
| C34_freqs_derivatives | sig_forall_dec, sig_not_dec, classic, functional_extensionality_dep |
| C34_freqs_refuted | sig_forall_dec, sig_not_dec, classic, functional_extensionality_dep |
| C34_motion | sig_forall_dec, sig_not_dec, classic, functional_extensionality_dep |
| C34_rotation | sig_forall_dec, sig_not_dec, classic, functional_extensionality_dep |
| C34_rotation_refuted | sig_forall_dec, sig_not_dec, classic, functional_extensionality_dep |
| C34_round_trip | sig_forall_dec, sig_not_dec, classic, functional_extensionality_dep |
| C34_round_trip_refuted | sig_forall_dec, sig_not_dec, classic, functional_extensionality_dep |
| C34_turning | sig_forall_dec, sig_not_dec, functional_extensionality_dep |
| C35_count | sig_forall_dec, functional_extensionality_dep |
| C35_planar_round_trip | sig_forall_dec, sig_not_dec, functional_extensionality_dep |
| C35_planar_time_dependent_refuted | sig_forall_dec, sig_not_dec, functional_extensionality_dep |
| C35_refused | sig_forall_dec, sig_not_dec, functional_extensionality_dep |
| C35_round_trip | sig_forall_dec, sig_not_dec, functional_extensionality_dep |
| C36_chandrasekhar | sig_forall_dec, sig_not_dec, classic, functional_extensionality_dep |
| C36_copy | sig_forall_dec, sig_not_dec, classic, functional_extensionality_dep |
| C36_copy_user_partial | sig_forall_dec, sig_not_dec, classic, functional_extensionality_dep |
| C36_copy_user_refuted | sig_forall_dec, sig_not_dec, classic, functional_extensionality_dep |
| C36_fdm | sig_forall_dec, sig_not_dec, classic, functional_extensionality_dep |
| C36_history | sig_forall_dec, sig_not_dec, classic, functional_extensionality_dep |
| C37_flip | sig_forall_dec, sig_not_dec, functional_extensionality_dep |
| C37_flip_inplace | sig_forall_dec, sig_not_dec, functional_extensionality_dep |
| C37_flip_then_continue_refuted | sig_forall_dec, functional_extensionality_dep |
| C37_time_reversal | sig_forall_dec, functional_extensionality_dep |
| C38_azimuth_wrapped_refuted | sig_forall_dec, sig_not_dec, classic, functional_extensionality_dep |
| C38_backward_reordered_refuted | sig_forall_dec, sig_not_dec, classic, functional_extensionality_dep |
| C38_evaluation | sig_forall_dec, sig_not_dec, classic, functional_extensionality_dep |
| C38_history | sig_forall_dec, sig_not_dec, classic, functional_extensionality_dep |
| C38_not_integrated | sig_forall_dec, sig_not_dec, classic, functional_extensionality_dep |
| C38_out_of_range | sig_forall_dec, sig_not_dec, classic, functional_extensionality_dep |
| C39_candidate | sig_forall_dec, sig_not_dec, classic, functional_extensionality_dep |
| C39_history | sig_forall_dec, sig_not_dec, classic, functional_extensionality_dep |
| C39_hulls_refuted | sig_forall_dec, sig_not_dec, classic, functional_extensionality_dep |
| C39_largest_refuted | sig_forall_dec, sig_not_dec, classic, functional_extensionality_dep |
| C39_lower_hull_partial | sig_forall_dec, sig_not_dec, classic, functional_extensionality_dep |
| C39_update | sig_forall_dec, sig_not_dec, functional_extensionality_dep |
| C39_upper_hull | sig_forall_dec, sig_not_dec, classic, functional_extensionality_dep |
| C39_upper_hull_exact | sig_forall_dec, sig_not_dec, classic, functional_extensionality_dep |
| C40_everywhere_partial | sig_forall_dec, sig_not_dec, functional_extensionality_dep |
| C40_exact_refuted | sig_forall_dec, sig_not_dec, functional_extensionality_dep |
| C40_maps | sig_forall_dec, sig_not_dec, functional_extensionality_dep |
| C40_no_caps | sig_forall_dec, sig_not_dec, functional_extensionality_dep |
| C40_orientation_refuted | sig_forall_dec, sig_not_dec, functional_extensionality_dep |
| C41_dl_roundtrip | sig_forall_dec, sig_not_dec, classic, functional_extensionality_dep |
| C41_dl_to_rphi_triangle | sig_forall_dec, sig_not_dec, classic, functional_extensionality_dep |
| C41_rphi_roundtrip | sig_forall_dec, sig_not_dec, classic, functional_extensionality_dep |
| C41_rphi_to_dl_triangle | sig_forall_dec, sig_not_dec, classic, functional_extensionality_dep |
| C42_base_orbit_unchanged | sig_forall_dec, functional_extensionality_dep |
| C42_catalogue_orbits_symplectic | sig_forall_dec, sig_not_dec, classic, functional_extensionality_dep |
| C42_cylindrical_coordinates | sig_forall_dec, sig_not_dec, classic, functional_extensionality_dep |
| C42_deviations_are_tangent | sig_forall_dec, sig_not_dec, functional_extensionality_dep |
| C42_linear_force_jacobian | sig_forall_dec, functional_extensionality_dep |
| C42_planar_force_jacobian | sig_forall_dec, sig_not_dec, classic, functional_extensionality_dep |
| C42_rect_force_jacobian | sig_forall_dec, sig_not_dec, classic, functional_extensionality_dep |
| C42_rhs_is_linearised | sig_forall_dec, sig_not_dec, classic, functional_extensionality_dep |
| C42_two_form_conserved | sig_forall_dec, functional_extensionality_dep |
| C43_amplitude_wrappers | sig_forall_dec, sig_not_dec, classic, functional_extensionality_dep |
| C43_cosmphi_Rphideriv_refuted | sig_forall_dec, sig_not_dec, classic, functional_extensionality_dep |
| C43_cosmphi_cp_sp | sig_forall_dec, sig_not_dec, classic, functional_extensionality_dep |
| C43_cosmphi_cp_sp_refuted | sig_forall_dec, sig_not_dec, classic, functional_extensionality_dep |
| C43_cosmphi_documented | sig_forall_dec, sig_not_dec, classic, functional_extensionality_dep |
| C43_cosmphi_documented_refuted | sig_forall_dec, sig_not_dec, classic, functional_extensionality_dep |
| C43_cosmphi_forces | sig_forall_dec, sig_not_dec, classic, functional_extensionality_dep |
| C43_cosmphi_forces_at_break | sig_forall_dec, sig_not_dec, classic, functional_extensionality_dep |
| C43_cosmphi_hessian | sig_forall_dec, sig_not_dec, classic, functional_extensionality_dep |
| C43_elliptical_cp_sp | sig_forall_dec, sig_not_dec, classic, functional_extensionality_dep |
| C43_elliptical_disk | sig_forall_dec, sig_not_dec, classic, functional_extensionality_dep |
| C43_elliptical_documented | sig_forall_dec, sig_not_dec, classic, functional_extensionality_dep |
| C43_growing_and_pulsing_wrappers | sig_forall_dec, sig_not_dec, classic, functional_extensionality_dep |
| C43_growth | sig_forall_dec, sig_not_dec, classic, functional_extensionality_dep |
| C43_growth_refuted | sig_forall_dec, sig_not_dec, classic, functional_extensionality_dep |
| C43_henon_heiles | sig_forall_dec, sig_not_dec, classic, functional_extensionality_dep |
| C43_isothermal_poisson | sig_forall_dec, sig_not_dec, classic, functional_extensionality_dep |
| C43_linear | sig_forall_dec, sig_not_dec, classic, functional_extensionality_dep |
| C43_lopsided_documented_refuted | sig_forall_dec, sig_not_dec, classic, functional_extensionality_dep |
| C43_pitch_angle | sig_forall_dec, sig_not_dec, classic, functional_extensionality_dep |
| C43_rotating_wrapper | sig_forall_dec, sig_not_dec, classic, functional_extensionality_dep |
| C43_spirals_documented | sig_forall_dec, sig_not_dec, classic, functional_extensionality_dep |
| C43_steady_spiral | sig_forall_dec, sig_not_dec, classic, functional_extensionality_dep |
| C43_sums | sig_forall_dec, sig_not_dec, functional_extensionality_dep |
| C43_transient_spiral | sig_forall_dec, sig_not_dec, classic, functional_extensionality_dep |
| C43_tsteady_alone_refuted | sig_forall_dec, sig_not_dec, classic, functional_extensionality_dep |
| C44_normalised_sum_refuted | sig_forall_dec, sig_not_dec, classic, functional_extensionality_dep |
| C44_planar_break_radius_refuted | sig_forall_dec, sig_not_dec, classic, functional_extensionality_dep |
| C44_planar_kuzmin_disk_refuted | sig_forall_dec, sig_not_dec, classic, functional_extensionality_dep |
| C44_planar_negative_b_refuted | sig_forall_dec, sig_not_dec, classic, functional_extensionality_dep |
| C44_planar_same_equations | sig_forall_dec, sig_not_dec, classic, functional_extensionality_dep |
| C44_planar_same_formulas | sig_forall_dec, sig_not_dec, classic, functional_extensionality_dep |
| C44_planar_same_formulas_one | sig_forall_dec, sig_not_dec, classic, functional_extensionality_dep |
| C44_rotating_energy_refuted | sig_forall_dec, sig_not_dec, classic, functional_extensionality_dep |
| C44_same_equations | sig_forall_dec, sig_not_dec, classic, functional_extensionality_dep |
| C44_same_formulas | sig_forall_dec, sig_not_dec, classic, functional_extensionality_dep |
| C44_same_formulas_one | sig_forall_dec, sig_not_dec, classic, functional_extensionality_dep |
| C45_c_and_python_agree | sig_forall_dec, sig_not_dec, classic, functional_extensionality_dep |
| C45_c_fast_friction_refuted | sig_forall_dec, sig_not_dec, classic, functional_extensionality_dep |
| C45_c_follows_the_orbit | sig_forall_dec, sig_not_dec, classic, functional_extensionality_dep |
| C45_c_leaves_out_slow_friction | sig_forall_dec, sig_not_dec, classic, functional_extensionality_dep |
| C45_c_velocity_dependent_refuted | sig_forall_dec, sig_not_dec, classic, functional_extensionality_dep |
| C45_crossings_are_whole_turns | sig_forall_dec, sig_not_dec, functional_extensionality_dep |
| C45_every_orbit_is_followed | sig_forall_dec, sig_not_dec, classic, functional_extensionality_dep |
| C45_planar_c_and_python_agree | sig_forall_dec, sig_not_dec, classic, functional_extensionality_dep |
| C45_planar_follows_the_orbit | sig_forall_dec, sig_not_dec, classic, functional_extensionality_dep |
| C45_planar_starts_at_the_given_point | sig_forall_dec, sig_not_dec, classic, functional_extensionality_dep |
| C45_points_are_on_one_orbit | sig_forall_dec, sig_not_dec, classic, functional_extensionality_dep |
| C45_points_are_on_the_surface | sig_forall_dec, sig_not_dec, classic, functional_extensionality_dep |
| C45_python_follows_the_orbit | sig_forall_dec, sig_not_dec, classic, functional_extensionality_dep |
| C45_starts_at_the_given_point | sig_forall_dec, sig_not_dec, classic, functional_extensionality_dep |
| C45_time_dependent_refuted | sig_forall_dec, sig_not_dec, classic, functional_extensionality_dep |
| C46_angular_momentum | sig_forall_dec, sig_not_dec, classic, functional_extensionality_dep |
| C46_c_follows_newton | sig_forall_dec, sig_not_dec, classic, functional_extensionality_dep |
| C46_conversions | sig_forall_dec, sig_not_dec, classic, functional_extensionality_dep |
| C46_default_jacobi_refuted | sig_forall_dec, sig_not_dec, classic, functional_extensionality_dep |
| C46_energy | sig_forall_dec, sig_not_dec, classic, functional_extensionality_dep |
| C46_energy_of_c_orbits | sig_forall_dec, sig_not_dec, classic, functional_extensionality_dep |
| C46_energy_of_integrated_orbits | sig_forall_dec, sig_not_dec, classic, functional_extensionality_dep |
| C46_every_orbit_is_a_solution | sig_forall_dec, sig_not_dec, classic, functional_extensionality_dep |
| C46_jacobi | sig_forall_dec, sig_not_dec, classic, functional_extensionality_dep |
| C46_linear | sig_forall_dec, sig_not_dec, functional_extensionality_dep |
| C46_negative_radius_refuted | sig_forall_dec, sig_not_dec, classic, functional_extensionality_dep |
| C46_planar_conversions | sig_forall_dec, sig_not_dec, classic, functional_extensionality_dep |
| C46_planar_follows_newton | sig_forall_dec, sig_not_dec, classic, functional_extensionality_dep |
| C46_planar_integrals | sig_forall_dec, sig_not_dec, classic, functional_extensionality_dep |
| C46_planar_negative_radius_refuted | sig_forall_dec, sig_not_dec, classic, functional_extensionality_dep |
| C46_planar_without_azimuth_follows_newton | sig_forall_dec, sig_not_dec, classic, functional_extensionality_dep |
| C46_python_follows_newton | sig_forall_dec, sig_not_dec, classic, functional_extensionality_dep |
| C46_python_without_azimuth_follows_newton | sig_forall_dec, sig_not_dec, classic, functional_extensionality_dep |
| C46_separate_energies | sig_forall_dec, sig_not_dec, classic, functional_extensionality_dep |
| C46_symplectic_force | sig_forall_dec, sig_not_dec, classic, functional_extensionality_dep |
| C47_actions | sig_forall_dec, sig_not_dec, classic, functional_extensionality_dep |
| C47_c | sig_forall_dec, sig_not_dec, classic, functional_extensionality_dep |
| C47_conserved | sig_forall_dec, sig_not_dec, classic, functional_extensionality_dep |
| C47_derivatives | sig_forall_dec, sig_not_dec, classic, functional_extensionality_dep |
| C47_estimateDelta | sig_forall_dec, sig_not_dec, classic, functional_extensionality_dep |
| C47_estimateDelta_input_refuted | sig_forall_dec, sig_not_dec, functional_extensionality_dep |
| C47_integrands | sig_forall_dec, sig_not_dec, classic, functional_extensionality_dep |
| C47_kuzminkutuzov | sig_forall_dec, sig_not_dec, classic, functional_extensionality_dep |
| C47_momenta | sig_forall_dec, sig_not_dec, classic, functional_extensionality_dep |
| C48_anisotropy | sig_forall_dec, sig_not_dec, functional_extensionality_dep |
| C48_arrays | sig_forall_dec, sig_not_dec, classic, functional_extensionality_dep |
| C48_arrays_refuted | sig_forall_dec, sig_not_dec, classic, functional_extensionality_dep |
| C48_base_class_moments | sig_forall_dec, sig_not_dec, classic, functional_extensionality_dep |
| C48_constant_along_orbits | sig_forall_dec, sig_not_dec, classic, functional_extensionality_dep |
| C48_coordinates_and_orbit_agree | sig_forall_dec, sig_not_dec, functional_extensionality_dep |
| C48_dispersions | sig_forall_dec, sig_not_dec, functional_extensionality_dep |
| C48_hernquist_density | sig_forall_dec, sig_not_dec, classic, functional_extensionality_dep |
| C48_moments | sig_forall_dec, sig_not_dec, classic, functional_extensionality_dep |
| C48_odd_moments_refuted | sig_forall_dec, sig_not_dec, classic, functional_extensionality_dep |
| C48_orbits_with_several_rows_refuted | sig_forall_dec, sig_not_dec, classic, functional_extensionality_dep |
| C48_plummer_density | sig_forall_dec, sig_not_dec, classic, functional_extensionality_dep |
| C48_powerlaw_density | sig_forall_dec, sig_not_dec, classic, functional_extensionality_dep |
| C49_interpolators_are_current | sig_forall_dec, functional_extensionality_dep |
| C49_isotropic_velocity_angle | sig_forall_dec, sig_not_dec, classic, functional_extensionality_dep |
| C49_osipkov_merritt_speed | sig_forall_dec, sig_not_dec, functional_extensionality_dep |
| C49_osipkov_merritt_velocity_angle | sig_forall_dec, sig_not_dec, classic, functional_extensionality_dep |
| C49_positions_are_isotropic | sig_forall_dec, sig_not_dec, classic, functional_extensionality_dep |
| C49_powerlaw_radii_follow_the_mass | sig_forall_dec, sig_not_dec, classic, functional_extensionality_dep |
| C49_radii_follow_the_mass | sig_forall_dec, sig_not_dec, classic, functional_extensionality_dep |
| C49_rmin_refuted | sig_forall_dec, sig_not_dec, classic, functional_extensionality_dep |
| C49_rows | sig_forall_dec, sig_not_dec, functional_extensionality_dep |
| C49_rows_at_a_position | sig_forall_dec, sig_not_dec, classic, functional_extensionality_dep |
| C50_angles | sig_forall_dec, sig_not_dec, classic, functional_extensionality_dep |
| C50_jacobian | sig_forall_dec, functional_extensionality_dep |
| C50_planar | sig_forall_dec, sig_not_dec, classic, functional_extensionality_dep |
| C50_planar_frequencies_refuted | sig_forall_dec, sig_not_dec, classic, functional_extensionality_dep |
| C50_quadratures | sig_forall_dec, sig_not_dec, classic, functional_extensionality_dep |
| C50_trapped | sig_forall_dec, sig_not_dec, classic, functional_extensionality_dep |
| C50_u0 | sig_forall_dec, sig_not_dec, classic, functional_extensionality_dep |
| C51_jz | sig_forall_dec, sig_not_dec, classic, functional_extensionality_dep |
| C51_spherical_angles | sig_forall_dec, sig_not_dec, classic, functional_extensionality_dep |
| C51_spherical_extent | sig_forall_dec, sig_not_dec, classic, functional_extensionality_dep |
| C51_spherical_period | sig_forall_dec, sig_not_dec, classic, functional_extensionality_dep |
| C51_vertical_angles | sig_forall_dec, sig_not_dec, classic, functional_extensionality_dep |
| C52_dehnen_arrays | sig_forall_dec, sig_not_dec, functional_extensionality_dep |
| C52_dehnen_arrays_refuted | sig_forall_dec, sig_not_dec, functional_extensionality_dep |
| C52_dehnen_density | sig_forall_dec, sig_not_dec, classic, functional_extensionality_dep |
| C52_dehnen_forces | sig_forall_dec, sig_not_dec, classic, functional_extensionality_dep |
| C52_dehnen_history | sig_forall_dec, sig_not_dec, functional_extensionality_dep |
| C52_dehnen_resonance | sig_forall_dec, sig_not_dec, classic, functional_extensionality_dep |
| C52_dehnen_second_derivatives | sig_forall_dec, sig_not_dec, classic, functional_extensionality_dep |
| C52_dehnen_times | sig_forall_dec, sig_not_dec, functional_extensionality_dep |
| C52_needle_density | sig_forall_dec, sig_not_dec, classic, functional_extensionality_dep |
| C52_needle_forces | sig_forall_dec, sig_not_dec, classic, functional_extensionality_dep |
| C52_needle_pattern | sig_forall_dec, sig_not_dec, classic, functional_extensionality_dep |
| C52_needle_second_derivatives | sig_forall_dec, sig_not_dec, classic, functional_extensionality_dep |
| C52_spiral_density_refuted | sig_forall_dec, sig_not_dec, classic, functional_extensionality_dep |
| C52_spiral_density_squared | sig_forall_dec, sig_not_dec, classic, functional_extensionality_dep |
| C52_spiral_forces | sig_forall_dec, sig_not_dec, classic, functional_extensionality_dep |
| C52_spiral_pattern | sig_forall_dec, sig_not_dec, classic, functional_extensionality_dep |
| C52_spiral_poisson_density | sig_forall_dec, sig_not_dec, classic, functional_extensionality_dep |
| C52_spiral_second_derivatives | sig_forall_dec, sig_not_dec, classic, functional_extensionality_dep |
| C53_base_mass | sig_forall_dec, sig_not_dec, classic, functional_extensionality_dep |
| C53_density | sig_forall_dec, sig_not_dec, classic, functional_extensionality_dep |
| C53_forces | sig_forall_dec, sig_not_dec, classic, functional_extensionality_dep |
| C53_mass_unique | sig_forall_dec, sig_not_dec, classic, functional_extensionality_dep |
| C53_masses | sig_forall_dec, sig_not_dec, classic, functional_extensionality_dep |
| C53_nodes | sig_forall_dec, functional_extensionality_dep |
| C53_pa | sig_forall_dec, sig_not_dec, functional_extensionality_dep |
| C53_perfect_mass_refuted | sig_forall_dec, sig_not_dec, classic, functional_extensionality_dep |
| C53_perfect_mass_scaled | sig_forall_dec, sig_not_dec, classic, functional_extensionality_dep |
| C53_power_amplitude | sig_forall_dec, sig_not_dec, classic, functional_extensionality_dep |
| C53_power_amplitude_refuted | sig_forall_dec, sig_not_dec, classic, functional_extensionality_dep |
| C53_profiles | sig_forall_dec, sig_not_dec, classic, functional_extensionality_dep |
| C53_rotated_refused | sig_forall_dec, sig_not_dec, functional_extensionality_dep |
| C53_second_derivatives | sig_forall_dec, sig_not_dec, classic, functional_extensionality_dep |
| C53_zvec | sig_forall_dec, sig_not_dec, functional_extensionality_dep |
| C54_dopr54 | sig_forall_dec, sig_not_dec, classic, functional_extensionality_dep |
| C54_estimate | sig_forall_dec, sig_not_dec, functional_extensionality_dep |
| C54_leapfrog | sig_forall_dec, sig_not_dec, classic, functional_extensionality_dep |
| C54_rk4 | sig_forall_dec, sig_not_dec, classic, functional_extensionality_dep |
| C54_rk6 | sig_forall_dec, sig_not_dec, classic, functional_extensionality_dep |
| C54_step_control | sig_forall_dec, functional_extensionality_dep |
| C54_step_count_refuted | sig_forall_dec, sig_not_dec, classic, functional_extensionality_dep |
| C54_wrong_sign_dopr54_refuted | sig_forall_dec, sig_not_dec, functional_extensionality_dep |
| C54_wrong_sign_rk4_refuted | sig_forall_dec, sig_not_dec, functional_extensionality_dep |
| C55_constant_beta | sig_forall_dec, sig_not_dec, classic, functional_extensionality_dep |
| C55_density | sig_forall_dec, sig_not_dec, functional_extensionality_dep |
| C55_density_scale | sig_forall_dec, sig_not_dec, classic, functional_extensionality_dep |
| C55_force | sig_forall_dec, sig_not_dec, classic, functional_extensionality_dep |
| C55_isothermal | sig_forall_dec, sig_not_dec, classic, functional_extensionality_dep |
| C55_los | sig_forall_dec, sig_not_dec, classic, functional_extensionality_dep |
| C55_radial | sig_forall_dec, sig_not_dec, classic, functional_extensionality_dep |
| C55_radial_force_everywhere | sig_forall_dec, sig_not_dec, classic, functional_extensionality_dep |
| C56_ars_corrected_refuted | sig_forall_dec, sig_not_dec, classic, functional_extensionality_dep |
| C56_ars_density | sig_forall_dec, sig_not_dec, classic, functional_extensionality_dep |
| C56_central_moments | sig_forall_dec, sig_not_dec, classic, functional_extensionality_dep |
| C56_circular_exists | sig_forall_dec, sig_not_dec, classic, functional_extensionality_dep |
| C56_constant_along_orbits | sig_forall_dec, sig_not_dec, classic, functional_extensionality_dep |
| C56_copies | sig_forall_dec, functional_extensionality_dep |
| C56_corrected_derivative_refuted | sig_forall_dec, sig_not_dec, classic, functional_extensionality_dep |
| C56_dehnen | sig_forall_dec, sig_not_dec, classic, functional_extensionality_dep |
| C56_dehnen_draw | sig_forall_dec, sig_not_dec, classic, functional_extensionality_dep |
| C56_dlToRphi | sig_forall_dec, sig_not_dec, classic, functional_extensionality_dep |
| C56_dlnf | sig_forall_dec, sig_not_dec, classic, functional_extensionality_dep |
| C56_drift | sig_forall_dec, sig_not_dec, classic, functional_extensionality_dep |
| C56_exp_profile | sig_forall_dec, sig_not_dec, classic, functional_extensionality_dep |
| C56_gamma | sig_forall_dec, sig_not_dec, classic, functional_extensionality_dep |
| C56_marginalizeVlos | sig_forall_dec, sig_not_dec, classic, functional_extensionality_dep |
| C56_marginalizeVperp | sig_forall_dec, sig_not_dec, classic, functional_extensionality_dep |
| C56_moment_derivative | sig_forall_dec, sig_not_dec, classic, functional_extensionality_dep |
| C56_moments | sig_forall_dec, sig_not_dec, classic, functional_extensionality_dep |
| C56_potential | sig_forall_dec, sig_not_dec, classic, functional_extensionality_dep |
| C56_regular | sig_forall_dec, sig_not_dec, classic, functional_extensionality_dep |
| C56_sample_longitude | sig_forall_dec, sig_not_dec, functional_extensionality_dep |
| C56_sample_longitude_refuted | sig_forall_dec, sig_not_dec, functional_extensionality_dep |
| C56_schwarzschild | sig_forall_dec, sig_not_dec, classic, functional_extensionality_dep |
| C56_schwarzschild_derivative_refuted | sig_forall_dec, sig_not_dec, classic, functional_extensionality_dep |
| C56_shu | sig_forall_dec, sig_not_dec, classic, functional_extensionality_dep |
| C56_shu_draw | sig_forall_dec, sig_not_dec, classic, functional_extensionality_dep |
| C56_shu_retrograde_flat | sig_forall_dec, sig_not_dec, classic, functional_extensionality_dep |
| C56_shu_retrograde_refuted | sig_forall_dec, sig_not_dec, classic, functional_extensionality_dep |
| C56_sigma2surfacemass | sig_forall_dec, sig_not_dec, classic, functional_extensionality_dep |
| C56_surfacemass | sig_forall_dec, sig_not_dec, classic, functional_extensionality_dep |
| C56_weight_refuted | sig_forall_dec, sig_not_dec, classic, functional_extensionality_dep |
| C57_adiabatic | sig_forall_dec, sig_not_dec, classic, functional_extensionality_dep |
| C57_adiabatic_density_refuted | sig_forall_dec, sig_not_dec, classic, functional_extensionality_dep |
| C57_angular_momentum | sig_forall_dec, sig_not_dec, classic, functional_extensionality_dep |
| C57_array | sig_forall_dec, sig_not_dec, classic, functional_extensionality_dep |
| C57_array_refuted | sig_forall_dec, sig_not_dec, classic, functional_extensionality_dep |
| C57_array_unbound_refuted | sig_forall_dec, sig_not_dec, classic, functional_extensionality_dep |
| C57_direct_density_refuted | sig_forall_dec, sig_not_dec, classic, functional_extensionality_dep |
| C57_direct_sigmaT2_refuted | sig_forall_dec, sig_not_dec, classic, functional_extensionality_dep |
| C57_dispersions | sig_forall_dec, sig_not_dec, classic, functional_extensionality_dep |
| C57_even | sig_forall_dec, sig_not_dec, classic, functional_extensionality_dep |
| C57_even_z | sig_forall_dec, sig_not_dec, classic, functional_extensionality_dep |
| C57_form | sig_forall_dec, sig_not_dec, classic, functional_extensionality_dep |
| C57_log | sig_forall_dec, sig_not_dec, classic, functional_extensionality_dep |
| C57_marginal_density | sig_forall_dec, sig_not_dec, classic, functional_extensionality_dep |
| C57_marginal_unbound_refuted | sig_forall_dec, sig_not_dec, classic, functional_extensionality_dep |
| C57_marginals | sig_forall_dec, sig_not_dec, classic, functional_extensionality_dep |
| C57_means | sig_forall_dec, sig_not_dec, classic, functional_extensionality_dep |
| C57_moment | sig_forall_dec, sig_not_dec, classic, functional_extensionality_dep |
| C57_moment_error | sig_forall_dec, sig_not_dec, classic, functional_extensionality_dep |
| C57_monte_carlo | sig_forall_dec, sig_not_dec, classic, functional_extensionality_dep |
| C57_monte_carlo_density_refuted | sig_forall_dec, sig_not_dec, classic, functional_extensionality_dep |
| C57_monte_carlo_term | sig_forall_dec, sig_not_dec, classic, functional_extensionality_dep |
| C57_nsigma_refuted | sig_forall_dec, sig_not_dec, classic, functional_extensionality_dep |
| C57_other_potential | sig_forall_dec, functional_extensionality_dep |
| C57_same_potential_refuted | sig_forall_dec, functional_extensionality_dep |
| C57_sample | sig_forall_dec, sig_not_dec, classic, functional_extensionality_dep |
| C57_sampleV | sig_forall_dec, sig_not_dec, classic, functional_extensionality_dep |
| C57_sample_many | sig_forall_dec, sig_not_dec, classic, functional_extensionality_dep |
| C57_sample_refuted | sig_forall_dec, sig_not_dec, classic, functional_extensionality_dep |
| C57_sample_rows | none (closed under the global context) |
| C57_scale_lengths | sig_forall_dec, sig_not_dec, classic, functional_extensionality_dep |
| C57_sigmaT2_mc | sig_forall_dec, sig_not_dec, classic, functional_extensionality_dep |
| C57_surfacemass | sig_forall_dec, sig_not_dec, functional_extensionality_dep |
| C57_surfacemass_refuted | sig_forall_dec, sig_not_dec, functional_extensionality_dep |
| C57_table_number | sig_forall_dec, sig_not_dec, classic, functional_extensionality_dep |
| C57_tilt | sig_forall_dec, sig_not_dec, classic, functional_extensionality_dep |
| C57_unbound | sig_forall_dec, sig_not_dec, classic, functional_extensionality_dep |
| C57_units | sig_forall_dec, functional_extensionality_dep |
| C58_any_density | sig_forall_dec, sig_not_dec, classic, functional_extensionality_dep |
| C58_any_ends | sig_forall_dec, sig_not_dec, classic, functional_extensionality_dep |
| C58_any_infinity_refuted | sig_forall_dec, sig_not_dec, classic, functional_extensionality_dep |
| C58_cutoff | sig_forall_dec, sig_not_dec, classic, functional_extensionality_dep |
| C58_cutoff_derivatives | sig_forall_dec, sig_not_dec, classic, functional_extensionality_dep |
| C58_einasto | sig_forall_dec, sig_not_dec, classic, functional_extensionality_dep |
| C58_einasto_amplitude_refuted | sig_forall_dec, sig_not_dec, classic, functional_extensionality_dep |
| C58_einasto_lengths | sig_forall_dec, sig_not_dec, classic, functional_extensionality_dep |
| C58_from_nfw | sig_forall_dec, sig_not_dec, classic, functional_extensionality_dep |
| C58_given_mass | sig_forall_dec, sig_not_dec, classic, functional_extensionality_dep |
| C58_interpolated | sig_forall_dec, sig_not_dec, classic, functional_extensionality_dep |
| C58_no_upper_limit_refuted | sig_forall_dec, sig_not_dec, classic, functional_extensionality_dep |
| C58_root_unique | sig_forall_dec, sig_not_dec, classic, functional_extensionality_dep |
| C58_truncated | sig_forall_dec, sig_not_dec, classic, functional_extensionality_dep |
| C58_truncated_centre | sig_forall_dec, sig_not_dec, classic, functional_extensionality_dep |
| C58_truncated_derivatives | sig_forall_dec, sig_not_dec, classic, functional_extensionality_dep |
| C59_axisymmetric | sig_forall_dec, functional_extensionality_dep |
| C59_density | sig_forall_dec, sig_not_dec, classic, functional_extensionality_dep |
| C59_flag_refuted | sig_forall_dec, sig_not_dec, classic, functional_extensionality_dep |
| C59_forces | sig_forall_dec, sig_not_dec, classic, functional_extensionality_dep |
| C59_keywords | sig_forall_dec, functional_extensionality_dep |
| C59_mixed | sig_forall_dec, sig_not_dec, classic, functional_extensionality_dep |
| C59_null | sig_forall_dec, sig_not_dec, functional_extensionality_dep |
| C59_outside_range_refuted | sig_forall_dec, sig_not_dec, classic, functional_extensionality_dep |
| C59_plane | sig_forall_dec, functional_extensionality_dep |
| C59_second | sig_forall_dec, sig_not_dec, classic, functional_extensionality_dep |
| C59_tables | sig_forall_dec, sig_not_dec, classic, functional_extensionality_dep |
| C59_three_disks | sig_forall_dec, sig_not_dec, classic, functional_extensionality_dep |
| C59_three_disks_accepted | sig_forall_dec, sig_not_dec, classic, functional_extensionality_dep |
| C59_three_disks_mass | sig_forall_dec, sig_not_dec, classic, functional_extensionality_dep |
| C59_three_disks_sum | sig_forall_dec, sig_not_dec, classic, functional_extensionality_dep |
| C60_antiparallel | sig_forall_dec, sig_not_dec, classic, functional_extensionality_dep |
| C60_antiparallel_refuted | sig_forall_dec, sig_not_dec, classic, functional_extensionality_dep |
| C60_general | sig_forall_dec, sig_not_dec, classic, functional_extensionality_dep |
| C60_general_agrees | sig_forall_dec, sig_not_dec, classic, functional_extensionality_dep |
| C60_general_curved | sig_forall_dec, sig_not_dec, classic, functional_extensionality_dep |
| C60_general_parallel_refuted | sig_forall_dec, sig_not_dec, classic, functional_extensionality_dep |
| C60_geometry | sig_forall_dec, sig_not_dec, functional_extensionality_dep |
| C60_hernquist | sig_forall_dec, sig_not_dec, classic, functional_extensionality_dep |
| C60_hernquist_at_scale | sig_forall_dec, sig_not_dec, classic, functional_extensionality_dep |
| C60_hernquist_at_scale_refuted | sig_forall_dec, sig_not_dec, classic, functional_extensionality_dep |
| C60_hernquist_curved | sig_forall_dec, sig_not_dec, classic, functional_extensionality_dep |
| C60_parallel | sig_forall_dec, sig_not_dec, classic, functional_extensionality_dep |
| C60_parallel_refuted | sig_forall_dec, sig_not_dec, classic, functional_extensionality_dep |
| C60_plummer | sig_forall_dec, sig_not_dec, classic, functional_extensionality_dep |
| C60_plummer_curved | sig_forall_dec, sig_not_dec, classic, functional_extensionality_dep |
| C60_stream | sig_forall_dec, sig_not_dec, classic, functional_extensionality_dep |
| C60_stream_bounds_refuted | sig_forall_dec, sig_not_dec, functional_extensionality_dep |
| C60_stream_curved | sig_forall_dec, sig_not_dec, functional_extensionality_dep |
| C60_stream_curved_range | sig_forall_dec, functional_extensionality_dep |
| C60_stream_straight | sig_forall_dec, sig_not_dec, classic, functional_extensionality_dep |
| C61_C | sig_forall_dec, sig_not_dec, classic, functional_extensionality_dep |
| C61_C_plane | sig_forall_dec, sig_not_dec, classic, functional_extensionality_dep |
| C61_accepted | sig_forall_dec, sig_not_dec, classic, functional_extensionality_dep |
| C61_azimuthal | sig_forall_dec, sig_not_dec, functional_extensionality_dep |
| C61_derivatives | sig_forall_dec, sig_not_dec, classic, functional_extensionality_dep |
| C61_dictionaries | sig_forall_dec, sig_not_dec, classic, functional_extensionality_dep |
| C61_expanded_density | sig_forall_dec, sig_not_dec, classic, functional_extensionality_dep |
| C61_functions | sig_forall_dec, sig_not_dec, classic, functional_extensionality_dep |
| C61_functions_one_vertical | sig_forall_dec, sig_not_dec, classic, functional_extensionality_dep |
| C61_hasC | sig_forall_dec, sig_not_dec, classic, functional_extensionality_dep |
| C61_input_density | sig_forall_dec, sig_not_dec, functional_extensionality_dep |
| C61_lengths_refuted | sig_forall_dec, sig_not_dec, classic, functional_extensionality_dep |
| C61_mass | sig_forall_dec, sig_not_dec, classic, functional_extensionality_dep |
| C61_mixed_azimuthal | sig_forall_dec, sig_not_dec, functional_extensionality_dep |
| C61_mixed_azimuthal_refuted | sig_forall_dec, sig_not_dec, classic, functional_extensionality_dep |
| C61_one_vertical | sig_forall_dec, sig_not_dec, classic, functional_extensionality_dep |
| C61_plane | sig_forall_dec, sig_not_dec, functional_extensionality_dep |
| C62_C | sig_forall_dec, sig_not_dec, classic, functional_extensionality_dep |
| C62_C_plane | sig_forall_dec, sig_not_dec, classic, functional_extensionality_dep |
| C62_class | sig_forall_dec, sig_not_dec, classic, functional_extensionality_dep |
| C62_class_plane | sig_forall_dec, sig_not_dec, classic, functional_extensionality_dep |
| C62_exact | sig_forall_dec, sig_not_dec, classic, functional_extensionality_dep |
| C62_forces | sig_forall_dec, sig_not_dec, classic, functional_extensionality_dep |
| C62_gradient_refuted | sig_forall_dec, sig_not_dec, classic, functional_extensionality_dep |
| C62_hessian | sig_forall_dec, sig_not_dec, classic, functional_extensionality_dep |
| C62_idempotent | sig_forall_dec, sig_not_dec, classic, functional_extensionality_dep |
| C62_mirror | sig_forall_dec, sig_not_dec, classic, functional_extensionality_dep |
| C62_same | sig_forall_dec, sig_not_dec, classic, functional_extensionality_dep |
| C62_staeckel | sig_forall_dec, sig_not_dec, classic, functional_extensionality_dep |
| C62_third_integral | sig_forall_dec, sig_not_dec, classic, functional_extensionality_dep |
| C62_time_refuted | sig_forall_dec, sig_not_dec, classic, functional_extensionality_dep |
| C63_C | sig_forall_dec, sig_not_dec, classic, functional_extensionality_dep |
| C63_C_tolerance_refuted | sig_forall_dec, sig_not_dec, classic, functional_extensionality_dep |
| C63_Oz_refuted | sig_forall_dec, sig_not_dec, classic, functional_extensionality_dep |
| C63_actions_agree | sig_forall_dec, sig_not_dec, classic, functional_extensionality_dep |
| C63_circular | sig_forall_dec, sig_not_dec, classic, functional_extensionality_dep |
| C63_extent | sig_forall_dec, sig_not_dec, classic, functional_extensionality_dep |
| C63_gamma | sig_forall_dec, sig_not_dec, classic, functional_extensionality_dep |
| C63_gamma_refuted | sig_forall_dec, sig_not_dec, classic, functional_extensionality_dep |
| C63_justjr | sig_forall_dec, sig_not_dec, classic, functional_extensionality_dep |
| C63_many | none (closed under the global context) |
| C63_planar | sig_forall_dec, sig_not_dec, classic, functional_extensionality_dep |
| C63_plane_potential | sig_forall_dec, sig_not_dec, classic, functional_extensionality_dep |
| C63_separable | sig_forall_dec, sig_not_dec, classic, functional_extensionality_dep |
| C64_disk_forces | sig_forall_dec, sig_not_dec, classic, functional_extensionality_dep |
| C64_disk_mirror | sig_forall_dec, sig_not_dec, classic, functional_extensionality_dep |
| C64_disk_potential | sig_forall_dec, sig_not_dec, classic, functional_extensionality_dep |
| C64_disk_surface | sig_forall_dec, sig_not_dec, classic, functional_extensionality_dep |
| C64_disk_vacuum | sig_forall_dec, sig_not_dec, classic, functional_extensionality_dep |
| C64_ring_forces | sig_forall_dec, sig_not_dec, classic, functional_extensionality_dep |
| C64_ring_normalize | sig_forall_dec, sig_not_dec, classic, functional_extensionality_dep |
| C64_ring_potential | sig_forall_dec, sig_not_dec, classic, functional_extensionality_dep |
| C64_ring_vacuum | sig_forall_dec, sig_not_dec, classic, functional_extensionality_dep |
| C65_cumulative | sig_forall_dec, functional_extensionality_dep |
| C65_distribution | sig_forall_dec, sig_not_dec, classic, functional_extensionality_dep |
| C65_equation | sig_forall_dec, sig_not_dec, classic, functional_extensionality_dep |
| C65_float_refuted | sig_forall_dec, sig_not_dec, classic, functional_extensionality_dep |
| C65_outside_refuted | sig_forall_dec, sig_not_dec, classic, functional_extensionality_dep |
| C65_potential | sig_forall_dec, sig_not_dec, classic, functional_extensionality_dep |
| C65_profile | sig_forall_dec, sig_not_dec, classic, functional_extensionality_dep |
| C65_scales | sig_forall_dec, sig_not_dec, classic, functional_extensionality_dep |
| C65_self_consistent | sig_forall_dec, sig_not_dec, classic, functional_extensionality_dep |
| C66_axisymmetric | sig_forall_dec, sig_not_dec, classic, functional_extensionality_dep |
| C66_default | sig_forall_dec, sig_not_dec, classic, functional_extensionality_dep |
| C66_density | sig_forall_dec, sig_not_dec, classic, functional_extensionality_dep |
| C66_expansion | sig_forall_dec, sig_not_dec, classic, functional_extensionality_dep |
| C66_forces | sig_forall_dec, sig_not_dec, classic, functional_extensionality_dep |
| C66_hessian | sig_forall_dec, sig_not_dec, classic, functional_extensionality_dep |
| C66_mass | sig_forall_dec, sig_not_dec, classic, functional_extensionality_dep |
| C66_near_axis_refuted | sig_forall_dec, sig_not_dec, classic, functional_extensionality_dep |
| C67_continuity_refuted | sig_forall_dec, sig_not_dec, classic, functional_extensionality_dep |
| C67_density | sig_forall_dec, sig_not_dec, classic, functional_extensionality_dep |
| C67_enclosed_mass_refuted | sig_forall_dec, sig_not_dec, classic, functional_extensionality_dep |
| C67_expansion | sig_forall_dec, sig_not_dec, classic, functional_extensionality_dep |
| C67_forces | sig_forall_dec, sig_not_dec, classic, functional_extensionality_dep |
| C67_hessian | sig_forall_dec, sig_not_dec, classic, functional_extensionality_dep |
| C68_constant_beta | sig_forall_dec, sig_not_dec, classic, functional_extensionality_dep |
| C68_largest_speed | sig_forall_dec, sig_not_dec, classic, functional_extensionality_dep |
| C68_negative_refuted | sig_forall_dec, sig_not_dec, classic, functional_extensionality_dep |
| C68_osipkov_merritt | sig_forall_dec, sig_not_dec, classic, functional_extensionality_dep |
| C68_radius | sig_forall_dec, sig_not_dec, classic, functional_extensionality_dep |
| C69_amplitude_refuted | sig_forall_dec, functional_extensionality_dep |
| C69_blumenthal | sig_forall_dec, sig_not_dec, classic, functional_extensionality_dep |
| C69_cautun | sig_forall_dec, sig_not_dec, classic, functional_extensionality_dep |
| C69_cautun_unchanged_refuted | sig_forall_dec, sig_not_dec, classic, functional_extensionality_dep |
| C69_contracts | sig_forall_dec, sig_not_dec, classic, functional_extensionality_dep |
| C69_fraction | sig_forall_dec, sig_not_dec, classic, functional_extensionality_dep |
| C69_gnedin | sig_forall_dec, sig_not_dec, classic, functional_extensionality_dep |
| C69_no_baryons | sig_forall_dec, sig_not_dec, classic, functional_extensionality_dep |
| C69_potential | sig_forall_dec, sig_not_dec, classic, functional_extensionality_dep |
| C70_liouville | sig_forall_dec, functional_extensionality_dep |
| C70_list | sig_forall_dec, functional_extensionality_dep |
| C70_list_edge | sig_forall_dec, functional_extensionality_dep |
| C70_list_end_refuted | sig_forall_dec, functional_extensionality_dep |
| C70_list_odeint | sig_forall_dec, functional_extensionality_dep |
| C70_list_start_refuted | sig_forall_dec, functional_extensionality_dep |
| C70_list_time_dependent_refuted | sig_forall_dec, functional_extensionality_dep |
| C70_log | sig_forall_dec, sig_not_dec, classic, functional_extensionality_dep |
| C71_center | sig_forall_dec, sig_not_dec, functional_extensionality_dep |
| C71_chen24 | sig_forall_dec, sig_not_dec, classic, functional_extensionality_dep |
| C71_chen24_direct | sig_forall_dec, sig_not_dec, classic, functional_extensionality_dep |
| C71_chen24_distance | sig_forall_dec, sig_not_dec, classic, functional_extensionality_dep |
| C71_fardal15 | sig_forall_dec, sig_not_dec, classic, functional_extensionality_dep |
| C71_fardal15_direct | sig_forall_dec, sig_not_dec, classic, functional_extensionality_dep |
| C71_fardal15_height_refuted | sig_forall_dec, sig_not_dec, classic, functional_extensionality_dep |
| C71_frame | sig_forall_dec, sig_not_dec, functional_extensionality_dep |
| C71_place_refuted | sig_forall_dec, sig_not_dec, classic, functional_extensionality_dep |
| C71_retrograde_refuted | sig_forall_dec, sig_not_dec, classic, functional_extensionality_dep |
| C71_tails | none (closed under the global context) |
| C72_asymmetric_refuted | sig_forall_dec, sig_not_dec, classic, functional_extensionality_dep |
| C72_cells | none (closed under the global context) |
| C72_dens | sig_forall_dec, sig_not_dec, classic, functional_extensionality_dep |
| C72_grid | sig_forall_dec, functional_extensionality_dep |
| C72_grid_refuted | sig_forall_dec, functional_extensionality_dep |
| C72_nodes | sig_forall_dec, sig_not_dec, classic, functional_extensionality_dep |
| C72_parity | sig_forall_dec, sig_not_dec, classic, functional_extensionality_dep |
| C72_radial | sig_forall_dec, sig_not_dec, classic, functional_extensionality_dep |
| C72_second | sig_forall_dec, sig_not_dec, classic, functional_extensionality_dep |
| C72_time_refuted | sig_forall_dec, sig_not_dec, classic, functional_extensionality_dep |
| C72_values | sig_forall_dec, sig_not_dec, classic, functional_extensionality_dep |
| C73_actions | sig_forall_dec, sig_not_dec, functional_extensionality_dep |
| C73_actions_constant | sig_forall_dec, sig_not_dec, functional_extensionality_dep |
| C73_actions_weights | sig_forall_dec, sig_not_dec, functional_extensionality_dep |
| C73_fit | sig_forall_dec, sig_not_dec, functional_extensionality_dep |
| C73_unwrap | sig_forall_dec, sig_not_dec, functional_extensionality_dep |
| C73_unwrap_coarse_refuted | sig_forall_dec, sig_not_dec, classic, functional_extensionality_dep |
| C73_unwrap_decreasing_refuted | sig_forall_dec, sig_not_dec, classic, functional_extensionality_dep |
| C73_unwrap_first_refuted | sig_forall_dec, sig_not_dec, classic, functional_extensionality_dep |
| C73_unwrap_turns | sig_forall_dec, sig_not_dec, functional_extensionality_dep |
| C73_vectors | none (closed under the global context) |
| C74_bins | sig_forall_dec, functional_extensionality_dep |
| C74_closest | sig_forall_dec |
| C74_closest_free | sig_forall_dec |
| C74_counts | sig_forall_dec, functional_extensionality_dep |
| C74_distance | sig_forall_dec, functional_extensionality_dep |
