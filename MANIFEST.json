{
 "claims": [
  {
   "property": "C01",
   "status": "proved",
   "theorems": [
    "C01_composite",
    "C01_forces_are_gradient"
   ],
   "note": "closed-form potentials listed in Model/PotAxi.v and Model/PotNonAxi.v, over exact reals; numerically integrated potentials are not modelled"
  },
  {
   "property": "C02",
   "status": "proved",
   "theorems": [
    "C02_azimuthal",
    "C02_composite",
    "C02_meridional"
   ],
   "note": "same potentials as C01"
  },
  {
   "property": "C03",
   "status": "proved",
   "theorems": [
    "C03_densities_agree",
    "C03_density",
    "C03_forcepoisson"
   ],
   "note": "same potentials as C01; own densities and the Poisson fallback"
  },
  {
   "property": "C04",
   "status": "proved",
   "theorems": [
    "C04_forceint",
    "C04_mass_centre",
    "C04_mass_derivative",
    "C04_mass_is_force"
   ],
   "note": "spherical potentials with a closed-form mass in Model/Mass.v"
  },
  {
   "property": "C05",
   "status": "proved",
   "theorems": [
    "C05_add",
    "C05_list",
    "C05_mul",
    "C05_mul_div",
    "C05_normalized_refuted"
   ],
   "note": "where the property fails, theorems ending in _refuted prove it: a combination that has been normalised loses its own amplitude when multiplied or combined again"
  },
  {
   "property": "C06",
   "status": "proved",
   "theorems": [
    "C06_idempotent",
    "C06_no_nesting",
    "C06_reading_order",
    "C06_same_values"
   ],
   "note": "Python lists as finite trees; sharing and cyclic lists are not modelled"
  },
  {
   "property": "C07",
   "status": "partial",
   "theorems": [
    "C07_add_checked",
    "C07_add_refused",
    "C07_members_agree_partial",
    "C07_members_agree_refuted",
    "C07_setitem_refuted"
   ],
   "note": "agreement of any two members is proved when the first member has both scales set; otherwise it is refuted; where the property fails, theorems ending in _refuted prove it: a combination whose first member has a scale unset; replacing the first member by item assignment"
  },
  {
   "property": "C08",
   "status": "proved",
   "theorems": [
    "C08_catalog_is_smooth",
    "C08_composite_is_smooth",
    "C08_corotating_rotation",
    "C08_cylindrically_separable",
    "C08_dehnen_smooth",
    "C08_gaussian_amplitude",
    "C08_kuzmin_like",
    "C08_kuzmin_like_physical_refuted",
    "C08_moving_object",
    "C08_rotate_and_tilt",
    "C08_smooth_implies_derivatives",
    "C08_solid_body_rotation",
    "C08_time_dependent_amplitude"
   ],
   "note": "wrappers in Model/Wrappers.v; SphericalReduction is not modelled; where the property fails, theorems ending in _refuted prove it: second derivatives of KuzminLikeWrapperPotential around an object with physical output switched on"
  },
  {
   "property": "C09",
   "status": "proved",
   "theorems": [
    "C09_between_0_and_1",
    "C09_continuously_differentiable",
    "C09_decay_is_complement",
    "C09_default_tsteady_refuted",
    "C09_monotone",
    "C09_off_before_on_after"
   ],
   "note": "where the property fails, theorems ending in _refuted prove it: without a tsteady and with positive tform the growth ends before it begins, and the switch is a jump"
  },
  {
   "property": "C10",
   "status": "proved",
   "theorems": [
    "C10_every_history",
    "C10_function_mismatch_refuted",
    "C10_inertial_motion",
    "C10_list_refuted",
    "C10_offset_origin_refuted",
    "C10_omitted_derivative",
    "C10_rate_derivative",
    "C10_shape_mismatch_refuted"
   ],
   "note": "the cache key is an MD5 hash assumed free of collisions; Omegadot obtained by finite differences is approximate and not claimed; where the property fails, theorems ending in _refuted prove it: the documented list of three numbers; a position of the origin without its acceleration; a scalar rate with a vector derivative"
  },
  {
   "property": "C11",
   "status": "proved",
   "theorems": [
    "C11_catalogue_axisymmetric",
    "C11_dissipative_identity_refuted",
    "C11_normalised_planar_refuted",
    "C11_normalised_vertical_refuted",
    "C11_planar",
    "C11_planar_forces",
    "C11_planar_idempotent",
    "C11_planar_identity",
    "C11_planar_list",
    "C11_planar_rejects_linear",
    "C11_vertical",
    "C11_vertical_force",
    "C11_vertical_rejects",
    "C11_vertical_succeeds"
   ],
   "note": "where the property fails, theorems ending in _refuted prove it: normalised combinations; a planar dissipative force cannot be reduced again"
  },
  {
   "property": "C12",
   "status": "proved",
   "theorems": [
    "C12_catalogue",
    "C12_dvcircdR",
    "C12_epifreq",
    "C12_epifreq_omega",
    "C12_flattening",
    "C12_function_dvcircdR",
    "C12_function_dvcircdR_refuted",
    "C12_function_normalized_refuted",
    "C12_function_omegac",
    "C12_function_vcirc",
    "C12_omegac",
    "C12_radial",
    "C12_rtide",
    "C12_tidal_refused",
    "C12_tidal_symmetric_trace",
    "C12_tidal_tensor",
    "C12_vcirc",
    "C12_verticalfreq",
    "C12_vterm"
   ],
   "note": "the eigenval option of ttensor is not modelled; where the property fails, theorems ending in _refuted prove it: the module function dvcircdR for non-axisymmetric potentials; module functions applied to a normalised combination"
  },
  {
   "property": "C13",
   "status": "proved",
   "theorems": [
    "C13_bound_orbit_refuted",
    "C13_circular_angular_momentum",
    "C13_circular_angular_momentum_refuted",
    "C13_circular_radius_bracket",
    "C13_circular_radius_found",
    "C13_corotation_bracket",
    "C13_corotation_found",
    "C13_corotation_none",
    "C13_guiding_radius_bracket",
    "C13_guiding_radius_exact",
    "C13_guiding_radius_found",
    "C13_half_mass_radius",
    "C13_lindblad",
    "C13_lindblad_complete_refuted",
    "C13_near_circular_refuted",
    "C13_peri_apo",
    "C13_u_range",
    "C13_u_range_turning",
    "C13_v_range",
    "C13_zvc",
    "C13_zvc_found",
    "C13_zvc_range",
    "C13_zvc_range_found",
    "C13_zvc_terminates"
   ],
   "note": "brentq is an oracle with a contract; a non-zero gamma in zero-velocity curves is not modelled; where the property fails, theorems ending in _refuted prove it: lindbladR misses large radii; nearly circular orbits raise; bound orbits with a far apocentre are called unbound; LcE ignores the time"
  },
  {
   "property": "C14",
   "status": "proved",
   "theorems": [
    "C14_cyl_meaning",
    "C14_cyl_rect_cyl",
    "C14_cyl_spher_cyl",
    "C14_rect_cyl_rect",
    "C14_spher_cyl_spher",
    "C14_spher_meaning"
   ],
   "note": ""
  },
  {
   "property": "C15",
   "status": "proved",
   "theorems": [
    "C15_cyl_components_are_rates",
    "C15_cyl_rect_cyl",
    "C15_cyl_speed",
    "C15_cyl_spher_cyl",
    "C15_rect_cyl_rect",
    "C15_rectgal_roundtrip",
    "C15_spher_components_are_rates",
    "C15_spher_cyl_spher",
    "C15_spher_speed",
    "C15_sphergal_roundtrip",
    "C15_vrpm_XYZ_meaning",
    "C15_vrpm_XYZ_roundtrip",
    "C15_vrpm_meaning",
    "C15_vrpm_roundtrip",
    "C15_vrpm_speed",
    "C15_vxyz_roundtrip"
   ],
   "note": ""
  },
  {
   "property": "C16",
   "status": "proved",
   "theorems": [
    "C16_XYZ_lbd_XYZ",
    "C16_custom_direction",
    "C16_custom_pm_roundtrip",
    "C16_custom_pm_same_motion",
    "C16_custom_roundtrip",
    "C16_galactic_frame",
    "C16_lb_radec_lb",
    "C16_lb_to_radec_direction",
    "C16_lbd_XYZ_lbd",
    "C16_lbd_meaning",
    "C16_pm_magnitude",
    "C16_pm_roundtrip",
    "C16_pm_same_motion",
    "C16_radec_lb_radec",
    "C16_radec_to_lb_direction"
   ],
   "note": "the code path without astropy"
  },
  {
   "property": "C17",
   "status": "proved",
   "theorems": [
    "C17_any_solar_position_refuted",
    "C17_cylindrical_roundtrip",
    "C17_cylindrical_velocity_roundtrip",
    "C17_distances",
    "C17_extra_rot_residual",
    "C17_position_roundtrip",
    "C17_rectangular_position_velocity_roundtrip",
    "C17_solar_motion",
    "C17_sun_and_centre",
    "C17_velocity_is_rate",
    "C17_velocity_roundtrip"
   ],
   "note": "the extra rotation is assumed orthogonal, as its construction intends; where the property fails, theorems ending in _refuted prove it: Xsun = 0"
  },
  {
   "property": "C18",
   "status": "proved",
   "theorems": [
    "C18_lambdanu_confocal",
    "C18_lambdanu_onto",
    "C18_lambdanu_ordering",
    "C18_lambdanu_roundtrip",
    "C18_momenta_conjugate",
    "C18_momenta_position_forms",
    "C18_momenta_roundtrip",
    "C18_oblate_Rz_uv_Rz",
    "C18_oblate_below_plane_refuted",
    "C18_oblate_uv_Rz_uv",
    "C18_prolate_Rz_uv_Rz",
    "C18_prolate_uv_Rz_uv"
   ],
   "note": "where the property fails, theorems ending in _refuted prove it: the sign of z is lost in the oblate conversion"
  },
  {
   "property": "C19",
   "status": "proved",
   "theorems": [
    "C19_XYZ_to_lbd",
    "C19_XYZ_to_lbd_phase_space",
    "C19_cyl_to_rect",
    "C19_cyl_to_rect_phase_space",
    "C19_galcenrect_to_XYZ_partial",
    "C19_galcenrect_to_XYZ_phase_space_partial",
    "C19_galcenrect_to_XYZ_refuted",
    "C19_galcenrect_to_galcencyl",
    "C19_galsky_to_sky_partial",
    "C19_galsky_to_sky_refuted",
    "C19_lambdanu",
    "C19_lambdanu_hessian",
    "C19_lbd_to_XYZ",
    "C19_lbd_to_XYZ_phase_space",
    "C19_sky_to_customsky"
   ],
   "note": "where the property fails, theorems ending in _refuted prove it: galcenrect_to_XYZ_jac ignores the extra rotation; galsky_to_sky_jac with epoch 1950"
  },
  {
   "property": "C20",
   "status": "proved",
   "theorems": [
    "C20_galcenrect_partial",
    "C20_galcenrect_refuted",
    "C20_proper_motion",
    "C20_proper_motion_psd",
    "C20_rect_to_cyl",
    "C20_samples_cover",
    "C20_space_velocity",
    "C20_space_velocity_psd"
   ],
   "note": "where the property fails, theorems ending in _refuted prove it: cov_vxyz_to_galcenrect has the signs of two covariances reversed"
  },
  {
   "property": "C21",
   "status": "proved",
   "theorems": [
    "C21_amplitude",
    "C21_critical",
    "C21_force_10m13_refuted",
    "C21_gevcc",
    "C21_kinds_complete",
    "C21_laws",
    "C21_other_factors",
    "C21_output",
    "C21_output_number",
    "C21_parse",
    "C21_parse_refuses",
    "C21_round_trip",
    "C21_scale_free"
   ],
   "note": "where the property fails, theorems ending in _refuted prove it: force_in_10m13kms2 is off by the ratio of the Julian to the tropical year"
  },
  {
   "property": "C22",
   "status": "proved",
   "theorems": [
    "C22_decision",
    "C22_flags",
    "C22_history",
    "C22_history_output",
    "C22_init",
    "C22_no_missing_scale",
    "C22_one_scale",
    "C22_one_scale_refuted",
    "C22_returned",
    "C22_scale_unique"
   ],
   "note": "where the property fails, theorems ending in _refuted prove it: number densities, surfacedensitydistance and angle ask for a scale they do not need"
  },
  {
   "property": "C23",
   "status": "proved",
   "theorems": [
    "C23_continuation_refuted",
    "C23_evaluation_commutes",
    "C23_getitem",
    "C23_getitem_succeeds",
    "C23_reshape",
    "C23_scales_refuted"
   ],
   "note": "where the property fails, theorems ending in _refuted prove it: scales given per orbit; integrating a selection further"
  },
  {
   "property": "C24",
   "status": "proved",
   "theorems": [
    "C24_close_times_refuted",
    "C24_failed_continuation_refuted",
    "C24_history",
    "C24_history_changing_potential",
    "C24_next_call",
    "C24_restart"
   ],
   "note": "where the property fails, theorems ending in _refuted prove it: grids shorter than the tolerance of the start-time comparison; a continuation that fails"
  },
  {
   "property": "C25",
   "status": "proved",
   "theorems": [
    "C25_check_c",
    "C25_dxdv",
    "C25_ias15_refuted",
    "C25_integrate",
    "C25_isDissipative",
    "C25_refuses_unknown",
    "C25_sos",
    "C25_upper_case_refuted",
    "C25_velocities_passed"
   ],
   "note": "where the property fails, theorems ending in _refuted prove it: method names in upper case; ias15_c with dissipative forces"
  },
  {
   "property": "C26",
   "status": "proved",
   "theorems": [
    "C26_inverse",
    "C26_leapfrog_is_composition",
    "C26_reversed_grid",
    "C26_symplectic",
    "C26_symplectic_rows",
    "C26_velocity_reversal"
   ],
   "note": "reversal is conditional on the same substep being chosen on the way back; where the property fails, theorems ending in _refuted prove it: reversal for runs in which the same substep is chosen both ways"
  },
  {
   "property": "C27",
   "status": "proved",
   "theorems": [
    "C27_c_estimate_terminates",
    "C27_c_steps_divide",
    "C27_given_step_truncated_refuted",
    "C27_given_step_wrong_sign_refuted",
    "C27_python_estimate_fuel",
    "C27_python_estimate_terminates",
    "C27_reduction_limit_refuted",
    "C27_rows_cover_grid",
    "C27_uneven_grid_refuted"
   ],
   "note": "where the property fails, theorems ending in _refuted prove it: uneven grids; a given step that is truncated or has the wrong sign; the limit on reductions"
  },
  {
   "property": "C28",
   "status": "proved",
   "theorems": [
    "C28_coefficient_sums",
    "C28_exact_sums_refuted",
    "C28_inverse",
    "C28_leapfrog_is_composition",
    "C28_palindromes",
    "C28_symplec4_is_composition",
    "C28_symplec6_is_composition",
    "C28_symplectic",
    "C28_time_drift",
    "C28_velocity_reversal"
   ],
   "note": "where the property fails, theorems ending in _refuted prove it: the printed coefficients do not sum to one exactly; the deviation is bounded"
  },
  {
   "property": "C29",
   "status": "proved",
   "theorems": [
    "C29_angular_momentum_conserved",
    "C29_axisymmetric_potential_torque",
    "C29_centre_of_mass_uniform",
    "C29_coincident_particles_refuted",
    "C29_force_is_gradient",
    "C29_momentum_conserved",
    "C29_relabelling",
    "C29_reversible",
    "C29_rows_are_leapfrog",
    "C29_test_particles",
    "C29_uneven_grid_refuted"
   ],
   "note": "where the property fails, theorems ending in _refuted prove it: coincident particles; uneven output grids"
  },
  {
   "property": "C30",
   "status": "proved",
   "theorems": [
    "C30_chunks",
    "C30_complete",
    "C30_each_step_progresses",
    "C30_empty_sequence_refuted",
    "C30_exception_genuine",
    "C30_exception_raised",
    "C30_killed_worker",
    "C30_result_is_map",
    "C30_single_element_refuted",
    "C30_terminates"
   ],
   "note": "where the property fails, theorems ending in _refuted prove it: an empty sequence is an error; a single element returns an unevaluated iterator"
  },
  {
   "property": "C31",
   "status": "proved",
   "theorems": [
    "C31_complete_stays",
    "C31_completes",
    "C31_failure_keeps_old",
    "C31_interrupt_before_open_refuted",
    "C31_old_or_complete",
    "C31_other_filesystem_refuted",
    "C31_return_means_saved",
    "C31_temporary_left_refuted"
   ],
   "note": "POSIX rename is atomic on one file system: part of the model; where the property fails, theorems ending in _refuted prove it: a temporary directory on another file system; an interrupt before the file is open; the temporary file can be left behind"
  },
  {
   "property": "C32",
   "status": "proved",
   "theorems": [
    "C32_check_config",
    "C32_failed_write_refuted",
    "C32_fix_config",
    "C32_fix_idempotent",
    "C32_import",
    "C32_percent_refuted",
    "C32_record_check",
    "C32_set_ro_vo",
    "C32_unknown_settings_refuted"
   ],
   "note": "where the property fails, theorems ending in _refuted prove it: settings galpy does not know; values with a percent sign; a write that fails half-way"
  },
  {
   "property": "C33",
   "status": "proved",
   "theorems": [
    "C33_action",
    "C33_canonical",
    "C33_forward_of_inverse",
    "C33_inverse_moves",
    "C33_inverse_of_forward",
    "C33_motion"
   ],
   "note": ""
  },
  {
   "property": "C34",
   "status": "proved",
   "theorems": [
    "C34_circular_Jr",
    "C34_circular_angles_refuted",
    "C34_energy",
    "C34_freqs",
    "C34_freqs_derivatives",
    "C34_freqs_refuted",
    "C34_motion",
    "C34_rotation",
    "C34_rotation_refuted",
    "C34_round_trip",
    "C34_round_trip_refuted",
    "C34_turning"
   ],
   "note": "the solver of Kepler's equation is an oracle with a contract, shown to exist; the tangent at pi/2 is taken as its float limit; where the property fails, theorems ending in _refuted prove it: circular orbits have no angles; orbits through the axis do not round-trip; retrograde orbits in the plane z=0 turn the wrong way"
  },
  {
   "property": "C35",
   "status": "proved",
   "theorems": [
    "C35_count",
    "C35_planar_round_trip",
    "C35_planar_time_dependent_refuted",
    "C35_refused",
    "C35_round_trip"
   ],
   "note": "the meaning of floats crossing ctypes is identity; where the property fails, theorems ending in _refuted prove it: planar TimeDependentAmplitudeWrapperPotential"
  },
  {
   "property": "C36",
   "status": "proved",
   "theorems": [
    "C36_chandrasekhar",
    "C36_copy",
    "C36_copy_user_partial",
    "C36_copy_user_refuted",
    "C36_fdm",
    "C36_history"
   ],
   "note": "where the property fails, theorems ending in _refuted prove it: a user-given velocity dispersion beyond the range of the table"
  },
  {
   "property": "C37",
   "status": "proved",
   "theorems": [
    "C37_flip",
    "C37_flip_inplace",
    "C37_flip_then_continue_refuted",
    "C37_time_reversal"
   ],
   "note": "where the property fails, theorems ending in _refuted prove it: integrating further after flip(inplace=True) of an integrated orbit"
  },
  {
   "property": "C38",
   "status": "proved",
   "theorems": [
    "C38_azimuth_wrapped_refuted",
    "C38_backward_reordered_refuted",
    "C38_evaluation",
    "C38_history",
    "C38_not_integrated",
    "C38_out_of_range"
   ],
   "note": "one array of times shared by all orbits; scipy's splines are oracles that interpolate; where the property fails, theorems ending in _refuted prove it: evaluation reorders short backward grids; azimuths come back in (-pi,pi]"
  },
  {
   "property": "C39",
   "status": "partial",
   "theorems": [
    "C39_candidate",
    "C39_history",
    "C39_hulls_refuted",
    "C39_largest_refuted",
    "C39_lower_hull_partial",
    "C39_update",
    "C39_upper_hull",
    "C39_upper_hull_exact"
   ],
   "note": "upper hull proved exact for two abscissae and ordering for all; lower hull proved except between the second and third abscissa, where it is refuted; outermost slopes non-zero and candidates generic; where the property fails, theorems ending in _refuted prove it: between the second and third of three or more abscissae; a candidate equal to the largest abscissa"
  },
  {
   "property": "C40",
   "status": "proved",
   "theorems": [
    "C40_everywhere_partial",
    "C40_exact_refuted",
    "C40_maps",
    "C40_no_caps",
    "C40_orientation_refuted"
   ],
   "note": "where the property fails, theorems ending in _refuted prove it: within 1.5e-5 of the two poles the direction is reached only approximately; the antiparallel direction is a point reflection"
  },
  {
   "property": "C41",
   "status": "proved",
   "theorems": [
    "C41_dl_roundtrip",
    "C41_dl_to_rphi_triangle",
    "C41_rphi_roundtrip",
    "C41_rphi_to_dl_triangle"
   ],
   "note": ""
  },
  {
   "property": "C42",
   "status": "proved",
   "theorems": [
    "C42_base_orbit_unchanged",
    "C42_catalogue_orbits_symplectic",
    "C42_cylindrical_coordinates",
    "C42_deviations_are_tangent",
    "C42_linear_force_jacobian",
    "C42_planar_force_jacobian",
    "C42_rect_force_jacobian",
    "C42_rhs_is_linearised",
    "C42_two_form_conserved"
   ],
   "note": ""
  },
  {
   "property": "C43",
   "status": "proved",
   "theorems": [
    "C43_amplitude_wrappers",
    "C43_cosmphi_Rphideriv_refuted",
    "C43_cosmphi_cp_sp",
    "C43_cosmphi_cp_sp_refuted",
    "C43_cosmphi_documented",
    "C43_cosmphi_documented_refuted",
    "C43_cosmphi_forces",
    "C43_cosmphi_forces_at_break",
    "C43_cosmphi_hessian",
    "C43_elliptical_cp_sp",
    "C43_elliptical_disk",
    "C43_elliptical_documented",
    "C43_growing_and_pulsing_wrappers",
    "C43_growth",
    "C43_growth_refuted",
    "C43_henon_heiles",
    "C43_isothermal_poisson",
    "C43_linear",
    "C43_lopsided_documented_refuted",
    "C43_pitch_angle",
    "C43_rotating_wrapper",
    "C43_spirals_documented",
    "C43_steady_spiral",
    "C43_sums",
    "C43_transient_spiral",
    "C43_tsteady_alone_refuted"
   ],
   "note": "parameters after unit parsing; where the property fails, theorems ending in _refuted prove it: Rphideriv of the cos(m phi) disk inside the break for m other than one; r1 other than one inside the break, where the potential jumps; r1 of the lopsided disk is ignored; negative cp with m>=2; growth of spirals with negative pattern speed; tsteady without tform"
  },
  {
   "property": "C44",
   "status": "proved",
   "theorems": [
    "C44_normalised_sum_refuted",
    "C44_planar_break_radius_refuted",
    "C44_planar_kuzmin_disk_refuted",
    "C44_planar_negative_b_refuted",
    "C44_planar_same_equations",
    "C44_planar_same_formulas",
    "C44_planar_same_formulas_one",
    "C44_rotating_energy_refuted",
    "C44_same_equations",
    "C44_same_formulas",
    "C44_same_formulas_one"
   ],
   "note": "C arithmetic as exact reals; double, int and pow as the mathematical functions; parameters in the constructors' ranges; DehnenSpherical with alpha other than 2 and 3; points off the centre for the spherical potentials, whose C second derivatives divide by r; in the plane, nan is any real that no growth time equals, and the amplitude given by a function of time is excluded (C35 shows it is misread); the remaining C potentials (double exponential, SCF, ellipsoidal, bars, spirals, moving objects, friction, frames, tilts) are not modelled; where the property fails, theorems ending in _refuted prove it: a combination that was normalised is integrated in C without its own factor; no energy in C inside a rotating wrapper (function pointer never set); in the plane the second derivative of the Kuzmin disk has the wrong sign, Miyamoto-Nagai with negative b has another force, the multipole disk at its break radius takes the other branch"
  },
  {
   "property": "C45",
   "status": "proved",
   "theorems": [
    "C45_c_and_python_agree",
    "C45_c_fast_friction_refuted",
    "C45_c_follows_the_orbit",
    "C45_c_leaves_out_slow_friction",
    "C45_c_velocity_dependent_refuted",
    "C45_crossings_are_whole_turns",
    "C45_every_orbit_is_followed",
    "C45_planar_c_and_python_agree",
    "C45_planar_follows_the_orbit",
    "C45_planar_starts_at_the_given_point",
    "C45_points_are_on_one_orbit",
    "C45_points_are_on_the_surface",
    "C45_python_follows_the_orbit",
    "C45_starts_at_the_given_point",
    "C45_time_dependent_refuted"
   ],
   "note": "the solver is exact; amplitude and rate of the angle nonzero along the solution; points off the axis; where the property fails, theorems ending in _refuted prove it: SOS restarts at t0 for its second leg, so in a time-dependent potential the returned points are not on one orbit; the C equations in space leave out every velocity-dependent force when |vR| < 1 and evaluate it at the wrong velocities otherwise"
  },
  {
   "property": "C46",
   "status": "proved",
   "theorems": [
    "C46_angular_momentum",
    "C46_c_follows_newton",
    "C46_conversions",
    "C46_default_jacobi_refuted",
    "C46_energy",
    "C46_energy_of_c_orbits",
    "C46_energy_of_integrated_orbits",
    "C46_every_orbit_is_a_solution",
    "C46_jacobi",
    "C46_linear",
    "C46_negative_radius_refuted",
    "C46_planar_conversions",
    "C46_planar_follows_newton",
    "C46_planar_integrals",
    "C46_planar_negative_radius_refuted",
    "C46_planar_without_azimuth_follows_newton",
    "C46_python_follows_newton",
    "C46_python_without_azimuth_follows_newton",
    "C46_separate_energies",
    "C46_symplectic_force"
   ],
   "note": "the solver is exact; points off the axis; the potential is differentiable along the orbit; where the property fails, theorems ending in _refuted prove it: when a Python integration passes through the axis the returned row is another point (pi is added to z instead of phi; in the plane vR is not turned); Jacobi without a pattern speed uses 1 and is not constant in a static potential that is not axisymmetric"
  },
  {
   "property": "C47",
   "status": "proved",
   "theorems": [
    "C47_actions",
    "C47_c",
    "C47_conserved",
    "C47_derivatives",
    "C47_estimateDelta",
    "C47_estimateDelta_input_refuted",
    "C47_integrands",
    "C47_kuzminkutuzov",
    "C47_momenta"
   ],
   "note": "Gauss-Legendre sums are replaced by the integrals; the linear expansion within 1e-6 of the turning points is replaced by its limit; turning points are arguments (C13 models their search); where the property fails, theorems ending in _refuted prove it: estimateDeltaStaeckel called with arrays changes the caller's array z wherever it is zero"
  },
  {
   "property": "C48",
   "status": "proved",
   "theorems": [
    "C48_anisotropy",
    "C48_arrays",
    "C48_arrays_refuted",
    "C48_base_class_moments",
    "C48_constant_along_orbits",
    "C48_coordinates_and_orbit_agree",
    "C48_dispersions",
    "C48_hernquist_density",
    "C48_moments",
    "C48_odd_moments_refuted",
    "C48_orbits_with_several_rows_refuted",
    "C48_plummer_density",
    "C48_powerlaw_density"
   ],
   "note": "quad is the Riemann integral; beta is a half-integer at most 1/2 and 2s an integer (closed forms of Gamma); the hypergeometric branch and the numerical inversions (eddingtondf, constantbetadf) are not modelled; where the property fails, theorems ending in _refuted prove it: Orbits with several rows share one angular momentum; odd moments of the tangential speed are returned as 0; arrays of energies with two axes have whole rows set to 0"
  },
  {
   "property": "C49",
   "status": "proved",
   "theorems": [
    "C49_interpolators_are_current",
    "C49_isotropic_velocity_angle",
    "C49_osipkov_merritt_speed",
    "C49_osipkov_merritt_velocity_angle",
    "C49_positions_are_isotropic",
    "C49_powerlaw_radii_follow_the_mass",
    "C49_radii_follow_the_mass",
    "C49_rmin_refuted",
    "C49_rows",
    "C49_rows_at_a_position"
   ],
   "note": "random numbers are arguments; the splines of the mass and speed samplers are oracles; _sample_eta of constantbetadf is not modelled; where the property fails, theorems ending in _refuted prove it: sample(rmin=) is ignored by the classes with a closed-form inverse mass profile"
  },
  {
   "property": "C50",
   "status": "proved",
   "theorems": [
    "C50_angles",
    "C50_jacobian",
    "C50_planar",
    "C50_planar_frequencies_refuted",
    "C50_quadratures",
    "C50_trapped",
    "C50_u0"
   ],
   "note": "the linear expansion within 1e-6 of the turning points is replaced by its limit and the Gauss-Legendre sums by the integrals; the turning points are arguments; that the derivatives are those of the action integrals is not proved; where the property fails, theorems ending in _refuted prove it: orbits in the plane get the epicycle frequencies of their present radius, which change along an eccentric orbit, and no angles"
  },
  {
   "property": "C51",
   "status": "proved",
   "theorems": [
    "C51_jz",
    "C51_spherical_angles",
    "C51_spherical_extent",
    "C51_spherical_period",
    "C51_vertical_angles"
   ],
   "note": "quadratures are integrals (the improper one of actionAngleVertical is the limit at the turning point) and the turning points are arguments; circular orbits, orbits retrograde in the plane z = 0, `_gamma`, `fixed_quad` errors, `_actionsFreqs` of actionAngleVertical and its 1e-6 guard are not covered"
  },
  {
   "property": "C52",
   "status": "proved",
   "theorems": [
    "C52_dehnen_arrays",
    "C52_dehnen_arrays_refuted",
    "C52_dehnen_density",
    "C52_dehnen_forces",
    "C52_dehnen_history",
    "C52_dehnen_resonance",
    "C52_dehnen_second_derivatives",
    "C52_dehnen_times",
    "C52_needle_density",
    "C52_needle_forces",
    "C52_needle_pattern",
    "C52_needle_second_derivatives",
    "C52_spiral_density_refuted",
    "C52_spiral_density_squared",
    "C52_spiral_forces",
    "C52_spiral_pattern",
    "C52_spiral_poisson_density",
    "C52_spiral_second_derivatives"
   ],
   "note": "the C versions and the caches of the needle bar are not covered; `omegab` given directly to the Dehnen bar is covered by the theorems about every DBar; where the property fails, theorems ending in _refuted prove it: the analytic density of the spiral arms is not the source of the potential, while with one term squared it is; an array of positions on the axis does not give the values of its entries"
  },
  {
   "property": "C53",
   "status": "proved",
   "theorems": [
    "C53_base_mass",
    "C53_density",
    "C53_forces",
    "C53_mass_unique",
    "C53_masses",
    "C53_nodes",
    "C53_pa",
    "C53_perfect_mass_refuted",
    "C53_perfect_mass_scaled",
    "C53_power_amplitude",
    "C53_power_amplitude_refuted",
    "C53_profiles",
    "C53_rotated_refused",
    "C53_second_derivatives",
    "C53_zvec"
   ],
   "note": "the Gauss-Legendre nodes and weights of numpy, `hyp2f1` and `erf` of scipy enter as oracles with their derivative law; `glorder=None` is the exact integral instead of `integrate.quad`; the C versions and the `isNonAxi` decision are not covered; where the property fails, theorems ending in _refuted prove it: the mass of the perfect ellipsoid for a different from 1, and the amplitude of the triaxial power law for alpha = 3, which comes out as 0"
  },
  {
   "property": "C54",
   "status": "proved",
   "theorems": [
    "C54_dopr54",
    "C54_estimate",
    "C54_leapfrog",
    "C54_rk4",
    "C54_rk6",
    "C54_step_control",
    "C54_step_count_refuted",
    "C54_wrong_sign_dopr54_refuted",
    "C54_wrong_sign_rk4_refuted"
   ],
   "note": "exact real arithmetic except in the theorem about the number of steps, where the two divisions are rounded by Flocq's binary64; the power of two from the error estimate of dopr54, `pow` and the error scale are arbitrary; SIGINT handling and the error flag are left out; the decimal coefficients of symplec4 and symplec6 satisfy their order conditions only up to rounding, so that no order is claimed for them; where the property fails, theorems ending in _refuted prove it: in double precision the number of steps can be one too small (output step 0.1 and 11 steps give 10), so that every output interval is cut short; and a given step of the wrong sign, which the check of Orbit.integrate accepts, makes dopr54_c run for ever and rk4_c step the wrong way"
  },
  {
   "property": "C55",
   "status": "proved",
   "theorems": [
    "C55_constant_beta",
    "C55_density",
    "C55_density_scale",
    "C55_force",
    "C55_isothermal",
    "C55_los",
    "C55_radial",
    "C55_radial_force_everywhere"
   ],
   "note": "`scipy.integrate.quad` is the exact improper integral; evaluateSurfaceDensities(Pot, R, inf) is an arbitrary function that may return NaN and otherwise the surface density; where the property fails, theorems ending in _refuted prove it: "
  },
  {
   "property": "C56",
   "status": "proved",
   "theorems": [
    "C56_ars_corrected_refuted",
    "C56_ars_density",
    "C56_central_moments",
    "C56_circular_exists",
    "C56_constant_along_orbits",
    "C56_copies",
    "C56_corrected_derivative_refuted",
    "C56_dehnen",
    "C56_dehnen_draw",
    "C56_dlToRphi",
    "C56_dlnf",
    "C56_drift",
    "C56_exp_profile",
    "C56_gamma",
    "C56_marginalizeVlos",
    "C56_marginalizeVperp",
    "C56_moment_derivative",
    "C56_moments",
    "C56_potential",
    "C56_regular",
    "C56_sample_longitude",
    "C56_sample_longitude_refuted",
    "C56_schwarzschild",
    "C56_schwarzschild_derivative_refuted",
    "C56_shu",
    "C56_shu_draw",
    "C56_shu_retrograde_flat",
    "C56_shu_retrograde_refuted",
    "C56_sigma2surfacemass",
    "C56_surfacemass",
    "C56_weight_refuted"
   ],
   "note": "`scipy.integrate.dblquad`/`quad` are exact iterated Riemann integrals; the spline through the table of corrections is an arbitrary function of radius; the adaptive rejection sampler is C39; where the property fails, theorems ending in _refuted prove it: "
  },
  {
   "property": "C57",
   "status": "proved",
   "theorems": [
    "C57_adiabatic",
    "C57_adiabatic_density_refuted",
    "C57_angular_momentum",
    "C57_array",
    "C57_array_refuted",
    "C57_array_unbound_refuted",
    "C57_direct_density_refuted",
    "C57_direct_sigmaT2_refuted",
    "C57_dispersions",
    "C57_even",
    "C57_even_z",
    "C57_form",
    "C57_log",
    "C57_marginal_density",
    "C57_marginal_unbound_refuted",
    "C57_marginals",
    "C57_means",
    "C57_moment",
    "C57_moment_error",
    "C57_monte_carlo",
    "C57_monte_carlo_density_refuted",
    "C57_monte_carlo_term",
    "C57_nsigma_refuted",
    "C57_other_potential",
    "C57_same_potential_refuted",
    "C57_sample",
    "C57_sampleV",
    "C57_sample_many",
    "C57_sample_refuted",
    "C57_sample_rows",
    "C57_scale_lengths",
    "C57_sigmaT2_mc",
    "C57_surfacemass",
    "C57_surfacemass_refuted",
    "C57_table_number",
    "C57_tilt",
    "C57_unbound",
    "C57_units"
   ],
   "note": "the tables of numpy's leggauss are arbitrary rules exact to degree 2n-1; tplquad is an exact iterated Riemann integral; the optimiser's maxVT is an arbitrary number; where the property fails, theorems ending in _refuted prove it: "
  },
  {
   "property": "C58",
   "status": "proved",
   "theorems": [
    "C58_any_density",
    "C58_any_ends",
    "C58_any_infinity_refuted",
    "C58_cutoff",
    "C58_cutoff_derivatives",
    "C58_einasto",
    "C58_einasto_amplitude_refuted",
    "C58_einasto_lengths",
    "C58_from_nfw",
    "C58_given_mass",
    "C58_interpolated",
    "C58_no_upper_limit_refuted",
    "C58_root_unique",
    "C58_truncated",
    "C58_truncated_centre",
    "C58_truncated_derivatives"
   ],
   "note": "scipy.special's gamma, gammainc, gammaincc, hyp1f1, exp1 are the mathematical functions; quad is the exact improper integral; splines are any functions with the stated derivatives; where the property fails, theorems ending in _refuted prove it: "
  },
  {
   "property": "C59",
   "status": "proved",
   "theorems": [
    "C59_axisymmetric",
    "C59_density",
    "C59_flag_refuted",
    "C59_forces",
    "C59_keywords",
    "C59_mixed",
    "C59_null",
    "C59_outside_range_refuted",
    "C59_plane",
    "C59_second",
    "C59_tables",
    "C59_three_disks",
    "C59_three_disks_accepted",
    "C59_three_disks_mass",
    "C59_three_disks_sum"
   ],
   "note": "rounding in R + dR is not modelled, so the roundoff part of the error of a numerical derivative is outside the bounds; where the property fails, theorems ending in _refuted prove it: "
  },
  {
   "property": "C60",
   "status": "proved",
   "theorems": [
    "C60_antiparallel",
    "C60_antiparallel_refuted",
    "C60_general",
    "C60_general_agrees",
    "C60_general_curved",
    "C60_general_parallel_refuted",
    "C60_geometry",
    "C60_hernquist",
    "C60_hernquist_at_scale",
    "C60_hernquist_at_scale_refuted",
    "C60_hernquist_curved",
    "C60_parallel",
    "C60_parallel_refuted",
    "C60_plummer",
    "C60_plummer_curved",
    "C60_stream",
    "C60_stream_bounds_refuted",
    "C60_stream_curved",
    "C60_stream_curved_range",
    "C60_stream_straight"
   ],
   "note": "scipy quad is the exact integral over the open interval; the accuracy of quadrature and the array handling of several stars are not modelled; the orbit of a curved stream is any pair of functions; where the property fails, theorems ending in _refuted prove it: "
  },
  {
   "property": "C61",
   "status": "proved",
   "theorems": [
    "C61_C",
    "C61_C_plane",
    "C61_accepted",
    "C61_azimuthal",
    "C61_derivatives",
    "C61_dictionaries",
    "C61_expanded_density",
    "C61_functions",
    "C61_functions_one_vertical",
    "C61_hasC",
    "C61_input_density",
    "C61_lengths_refuted",
    "C61_mass",
    "C61_mixed_azimuthal",
    "C61_mixed_azimuthal_refuted",
    "C61_one_vertical",
    "C61_plane"
   ],
   "note": "the expansion itself (SCF or multipole) is any potential object; numpy.sign, logsumexp and tanh are their real functions; scipy quad in the mass is the exact integral; where the property fails, theorems ending in _refuted prove it: "
  },
  {
   "property": "C62",
   "status": "proved",
   "theorems": [
    "C62_C",
    "C62_C_plane",
    "C62_class",
    "C62_class_plane",
    "C62_exact",
    "C62_forces",
    "C62_gradient_refuted",
    "C62_hessian",
    "C62_idempotent",
    "C62_mirror",
    "C62_same",
    "C62_staeckel",
    "C62_third_integral",
    "C62_time_refuted"
   ],
   "note": "R0z[1]*tan(v) and 1/tan(v) are their limits at v = pi/2; the wrapped potential is any axisymmetric potential object; where the property fails, theorems ending in _refuted prove it: "
  },
  {
   "property": "C63",
   "status": "proved",
   "theorems": [
    "C63_C",
    "C63_C_tolerance_refuted",
    "C63_Oz_refuted",
    "C63_actions_agree",
    "C63_circular",
    "C63_extent",
    "C63_gamma",
    "C63_gamma_refuted",
    "C63_justjr",
    "C63_many",
    "C63_planar",
    "C63_plane_potential",
    "C63_separable"
   ],
   "note": "turning points are given by the equations they solve; quadratures are integrals; for a retrograde orbit in the plane the code relies on the float arccos(-1) not being a zero of the sine, which the model states as a branch; where the property fails, theorems ending in _refuted prove it: "
  },
  {
   "property": "C64",
   "status": "proved",
   "theorems": [
    "C64_disk_forces",
    "C64_disk_mirror",
    "C64_disk_potential",
    "C64_disk_surface",
    "C64_disk_vacuum",
    "C64_ring_forces",
    "C64_ring_normalize",
    "C64_ring_potential",
    "C64_ring_vacuum"
   ],
   "note": "quadratures are integrals; the surface density of a disk vanishes beyond a radius, so that an integral up to infinity is one up to that radius; where the property fails, theorems ending in _refuted prove it: "
  },
  {
   "property": "C65",
   "status": "proved",
   "theorems": [
    "C65_cumulative",
    "C65_distribution",
    "C65_equation",
    "C65_float_refuted",
    "C65_outside_refuted",
    "C65_potential",
    "C65_profile",
    "C65_scales",
    "C65_self_consistent"
   ],
   "note": "the scale-free solution of the King equation and its derivative, which the code tabulates and interpolates, are a pair of functions W, W'; erf is its integral; where the property fails, theorems ending in _refuted prove it: "
  },
  {
   "property": "C66",
   "status": "proved",
   "theorems": [
    "C66_axisymmetric",
    "C66_default",
    "C66_density",
    "C66_expansion",
    "C66_forces",
    "C66_hessian",
    "C66_mass",
    "C66_near_axis_refuted"
   ],
   "note": "scipy's associated Legendre functions and their first derivative are those of the definition through derivatives of the Legendre polynomials; where the property fails, theorems ending in _refuted prove it: "
  },
  {
   "property": "C67",
   "status": "proved",
   "theorems": [
    "C67_continuity_refuted",
    "C67_density",
    "C67_enclosed_mass_refuted",
    "C67_expansion",
    "C67_forces",
    "C67_hessian"
   ],
   "note": "scipy's BPoly.from_derivatives gives twice differentiable splines through the given values and derivatives; InterpolatedUnivariateSpline.integral is the integral of the spline; where the property fails, theorems ending in _refuted prove it: Between grid radii the splines only interpolate the integrals, so Poisson's equation is stated at the grid radii and outside the grid."
  },
  {
   "property": "C68",
   "status": "proved",
   "theorems": [
    "C68_constant_beta",
    "C68_largest_speed",
    "C68_negative_refuted",
    "C68_osipkov_merritt",
    "C68_radius"
   ],
   "note": "scipy.special.gamma satisfies Euler's beta integral, equals sqrt(pi) at 1/2, is positive on positive reals and negative between -1 and 0; where the property fails, theorems ending in _refuted prove it: The gamma function is a parameter constrained by the beta integrals at the exponents in use."
  },
  {
   "property": "C69",
   "status": "proved",
   "theorems": [
    "C69_amplitude_refuted",
    "C69_blumenthal",
    "C69_cautun",
    "C69_cautun_unchanged_refuted",
    "C69_contracts",
    "C69_fraction",
    "C69_gnedin",
    "C69_no_baryons",
    "C69_potential"
   ],
   "note": "scipy.optimize.fixed_point returns a fixed point; interp1d and numpy.interp interpolate linearly; the spline passes through the table; where the property fails, theorems ending in _refuted prove it: scipy's fixed_point is taken to return exact fixed points; the new radii of the shells are taken to be increasing (interp1d sorts them)."
  },
  {
   "property": "C70",
   "status": "proved",
   "theorems": [
    "C70_liouville",
    "C70_list",
    "C70_list_edge",
    "C70_list_end_refuted",
    "C70_list_odeint",
    "C70_list_start_refuted",
    "C70_list_time_dependent_refuted",
    "C70_log"
   ],
   "note": "Orbit.integrate follows the flow of the potential from the first of the given times; where the property fails, theorems ending in _refuted prove it: Derivatives, marginalised values and velocity moments are not modelled."
  },
  {
   "property": "C71",
   "status": "proved",
   "theorems": [
    "C71_center",
    "C71_chen24",
    "C71_chen24_direct",
    "C71_chen24_distance",
    "C71_fardal15",
    "C71_fardal15_direct",
    "C71_fardal15_height_refuted",
    "C71_frame",
    "C71_place_refuted",
    "C71_retrograde_refuted",
    "C71_tails"
   ],
   "note": "random draws are arbitrary numbers; the tidal radius and force are arbitrary functions of the cylindrical coordinates; where the property fails, theorems ending in _refuted prove it: Sampling of times and normal variates, integration to the present and stream tracks are not modelled."
  },
  {
   "property": "C72",
   "status": "proved",
   "theorems": [
    "C72_asymmetric_refuted",
    "C72_cells",
    "C72_dens",
    "C72_grid",
    "C72_grid_refuted",
    "C72_nodes",
    "C72_parity",
    "C72_radial",
    "C72_second",
    "C72_time_refuted",
    "C72_values"
   ],
   "note": "scipy splines reproduce their data at the nodes (hypothesis of the node theorems only); where the property fails, theorems ending in _refuted prove it: C evaluation, units and not-a-number values are not modelled."
  },
  {
   "property": "C73",
   "status": "proved",
   "theorems": [
    "C73_actions",
    "C73_actions_constant",
    "C73_actions_weights",
    "C73_fit",
    "C73_unwrap",
    "C73_unwrap_coarse_refuted",
    "C73_unwrap_decreasing_refuted",
    "C73_unwrap_first_refuted",
    "C73_unwrap_turns",
    "C73_vectors"
   ],
   "note": "the matrix inverse is a left inverse of the normal matrix (hypothesis); where the property fails, theorems ending in _refuted prove it: Orbit integration, the median test, plots and non-axisymmetric potentials are not modelled."
  },
  {
   "property": "C74",
   "status": "proved",
   "theorems": [
    "C74_bins",
    "C74_closest",
    "C74_closest_free",
    "C74_counts",
    "C74_distance"
   ],
   "note": "scipy's cKDTree returns every point once in order of distance, ties in any order (hypothesis); where the property fails, theorems ending in _refuted prove it: Means, covariances, smoothing splines and the iteration of the fit are not modelled."
  }
 ]
}