{
 "claims": [
  {
   "property": "C01",
   "status": "proved",
   "theorems": [
    "C01_fresnel_fractions"
   ],
   "note": ""
  },
  {
   "property": "C02",
   "status": "proved",
   "theorems": [
    "C02_fresnel_sum_one"
   ],
   "note": ""
  },
  {
   "property": "C03",
   "status": "proved",
   "theorems": [
    "C03_rejects_iff_past_right_angle",
    "C03_accepts_otherwise"
   ],
   "note": ""
  },
  {
   "property": "C04",
   "status": "proved",
   "theorems": [
    "C04_fresnel_equations",
    "C04_refracted_angle_exists"
   ],
   "note": ""
  },
  {
   "property": "C05",
   "status": "proved",
   "theorems": [
    "C05_total_internal_reflection",
    "C05_not_total_below_critical"
   ],
   "note": ""
  },
  {
   "property": "C06",
   "status": "proved",
   "theorems": [
    "C06_reciprocity"
   ],
   "note": ""
  },
  {
   "property": "C07",
   "status": "proved",
   "theorems": [
    "C07_normal_incidence",
    "C07_no_contrast",
    "C07_brewster"
   ],
   "note": ""
  },
  {
   "property": "C08",
   "status": "partial",
   "theorems": [
    "C08_even_below_critical_partial",
    "C08_even_refuted"
   ],
   "note": "False of the code past the critical angle (negative angles escape the TIR mask): C08_even_refuted. Proved below the critical angle."
  },
  {
   "property": "C09",
   "status": "proved",
   "theorems": [
    "C09_refraction_snell",
    "C09_refraction_nan",
    "C09_refraction_roundtrip",
    "C09_refraction_same_medium"
   ],
   "note": ""
  },
  {
   "property": "C10",
   "status": "proved",
   "theorems": [
    "C10_normalize"
   ],
   "note": ""
  },
  {
   "property": "C11",
   "status": "proved",
   "theorems": [
    "C11_select_events",
    "C11_select_events_out_of_range"
   ],
   "note": ""
  },
  {
   "property": "C12",
   "status": "proved",
   "theorems": [
    "C12_scatter_keeps_length",
    "C12_scatter_succeeds"
   ],
   "note": ""
  },
  {
   "property": "C13",
   "status": "partial",
   "theorems": [
    "C13_scatter_angle_partial",
    "C13_scatter_angle_y",
    "C13_scatter_angle_refuted"
   ],
   "note": "False of the code: scatter rotates about fixed axes. Proved for directions along z; refuted in general."
  },
  {
   "property": "C14",
   "status": "proved",
   "theorems": [
    "C14_beer_lambert",
    "C14_weights_bounded",
    "C14_weights_decrease",
    "C14_no_absorption"
   ],
   "note": ""
  },
  {
   "property": "C15",
   "status": "proved",
   "theorems": [
    "C15_positions_add_up",
    "C15_one_more_position",
    "C15_consecutive_positions",
    "C15_distance_below_path"
   ],
   "note": ""
  },
  {
   "property": "C16",
   "status": "proved",
   "theorems": [
    "C16_exponential_law"
   ],
   "note": ""
  },
  {
   "property": "C17",
   "status": "proved",
   "theorems": [
    "C17_fine_roughness_range",
    "C17_fine_roughness_share",
    "C17_no_events"
   ],
   "note": ""
  },
  {
   "property": "C18",
   "status": "proved",
   "theorems": [
    "C18_film_launch",
    "C18_film_launch_errors",
    "C18_spot_uniform",
    "C18_spot_filled"
   ],
   "note": ""
  },
  {
   "property": "C19",
   "status": "proved",
   "theorems": [
    "C19_sphere_launch",
    "C19_sphere_uniform",
    "C19_sphere_needs_diameter"
   ],
   "note": ""
  },
  {
   "property": "C20",
   "status": "partial",
   "theorems": [
    "C20_sphere_entry_is_normal",
    "C20_sphere_entry_refuted",
    "C20_sphere_axis_nan"
   ],
   "note": "False of the code: without index contrast trajectories start along the inward normal, not +z; NaN on the axis."
  },
  {
   "property": "C21",
   "status": "proved",
   "theorems": [
    "C21_phase_function_distribution",
    "C21_sampling_distribution"
   ],
   "note": ""
  },
  {
   "property": "C22",
   "status": "proved",
   "theorems": [
    "C22_film_exits",
    "C22_never_both"
   ],
   "note": "The exit flags are characterised exactly for n_medium <= n_sample."
  },
  {
   "property": "C23",
   "status": "proved",
   "theorems": [
    "C23_one_outcome",
    "C23_trajectory_outcome"
   ],
   "note": ""
  },
  {
   "property": "C24",
   "status": "proved",
   "theorems": [
    "C24_first_exit_physical"
   ],
   "note": ""
  },
  {
   "property": "C25",
   "status": "partial",
   "theorems": [
    "C25_z_low_partial",
    "C25_z_low_refuted"
   ],
   "note": "False of the code: the thickness argument is the z coordinate of the back face. Proved when it is shifted too."
  },
  {
   "property": "C26",
   "status": "partial",
   "theorems": [
    "C26_equal_indices_partial",
    "C26_denser_medium_refuted"
   ],
   "note": "False of the code, for every trajectory: in a denser medium nothing leaves a film. Proved: with equal indices every first crossing is an exit."
  },
  {
   "property": "C27",
   "status": "proved",
   "theorems": [
    "C27_outcome_weights"
   ],
   "note": ""
  },
  {
   "property": "C28",
   "status": "proved",
   "theorems": [
    "C28_pass_fraction",
    "C28_raises_past_right_angle"
   ],
   "note": ""
  },
  {
   "property": "C29",
   "status": "proved",
   "theorems": [
    "C29_exit_split",
    "C29_film_never_raises"
   ],
   "note": ""
  },
  {
   "property": "C30",
   "status": "proved",
   "theorems": [
    "C30_keeps_or_drops",
    "C30_monotone",
    "C30_full_aperture"
   ],
   "note": ""
  },
  {
   "property": "C31",
   "status": "proved",
   "theorems": [
    "C31_film_energy",
    "C31_film_energy_rough"
   ],
   "note": ""
  },
  {
   "property": "C32",
   "status": "proved",
   "theorems": [
    "C32_fractions"
   ],
   "note": "Covers films with every parameter (including re-runs) and spheres without goniometer; steps of re-runs non-negative."
  },
  {
   "property": "C33",
   "status": "partial",
   "theorems": [
    "C33_numbers_refuted",
    "C33_denser_medium_nan",
    "C33_film_never_raises",
    "C33_film_number_partial",
    "C33_sphere_numbers"
   ],
   "note": "False of the code: a non-absorbing film no trajectory leaves gives NaN, as does any film in a denser medium. Proved: films never raise, give numbers once a trajectory leaves (coverslips not below the medium index), spheres always give numbers."
  },
  {
   "property": "C34",
   "status": "proved",
   "theorems": [
    "C34_sphere_energy",
    "C34_sphere_absorbing"
   ],
   "note": ""
  },
  {
   "property": "C35",
   "status": "partial",
   "theorems": [
    "C35_depth_refuted",
    "C35_depth_zero_partial"
   ],
   "note": "False of the code for every positive max_call_depth: nested calls use the default 20. True for 0."
  },
  {
   "property": "C36",
   "status": "proved",
   "theorems": [
    "C36_terminates"
   ],
   "note": ""
  },
  {
   "property": "C37",
   "status": "proved",
   "theorems": [
    "C37_exit_point"
   ],
   "note": ""
  },
  {
   "property": "C38",
   "status": "proved",
   "theorems": [
    "C38_rotation"
   ],
   "note": ""
  },
  {
   "property": "C39",
   "status": "partial",
   "theorems": [
    "C39_no_contrast_partial",
    "C39_exit_kz_refuted",
    "C39_exit_kz_value_refuted"
   ],
   "note": "False of the code: wrong sign for a whole family of rays. True without index contrast."
  },
  {
   "property": "C40",
   "status": "proved",
   "theorems": [
    "C40_reflection"
   ],
   "note": ""
  },
  {
   "property": "C41",
   "status": "proved",
   "theorems": [
    "C41_goniometer_refraction"
   ],
   "note": ""
  },
  {
   "property": "C42",
   "status": "partial",
   "theorems": [
    "C42_tir_shift_refuted",
    "C42_ignores_event",
    "C42_keeps_partial"
   ],
   "note": "False of the code: the TIR event is ignored. x, y, weights and |z| are kept."
  },
  {
   "property": "C43",
   "status": "partial",
   "theorems": [
    "C43_clamp_refuted",
    "C43_clamp_partial"
   ],
   "note": "False of the code for z0 (no lower clamp). Proved for the other five coordinates."
  },
  {
   "property": "C44",
   "status": "proved",
   "theorems": [
    "C44_haze"
   ],
   "note": ""
  },
  {
   "property": "C45",
   "status": "proved",
   "theorems": [
    "C45_event_distribution",
    "C45_event_distribution_total"
   ],
   "note": ""
  },
  {
   "property": "C46",
   "status": "partial",
   "theorems": [
    "C46_fresnel_pdf",
    "C46_fresnel_avg_partial",
    "C46_fresnel_avg_raises_refuted"
   ],
   "note": "pdf redistribution proved; average-event redistribution proved when both outcomes occur, raises otherwise (refuted part)."
  },
  {
   "property": "C47",
   "status": "partial",
   "theorems": [
    "C47_arguments_ignored_refuted",
    "C47_returns_event_numbers_refuted",
    "C47_entries_refuted",
    "C47_too_few_indices"
   ],
   "note": "False of the code: the per-trajectory reflectances and transmission events passed in do not matter; event numbers are returned."
  },
  {
   "property": "C48",
   "status": "proved",
   "theorems": [
    "C48_py_is_transform",
    "C48_direct_correlation_range"
   ],
   "note": ""
  },
  {
   "property": "C49",
   "status": "proved",
   "theorems": [
    "C49_para_bounds",
    "C49_para_disorder_limit"
   ],
   "note": ""
  },
  {
   "property": "C50",
   "status": "proved",
   "theorems": [
    "C50_data_at_points",
    "C50_data_between",
    "C50_data_range",
    "C50_data_outside",
    "C50_data_answered"
   ],
   "note": ""
  },
  {
   "property": "C51",
   "status": "proved",
   "theorems": [
    "C51_maxwell_garnett_between",
    "C51_maxwell_garnett_ends",
    "C51_maxwell_garnett_monotone",
    "C51_maxwell_garnett_relation"
   ],
   "note": ""
  },
  {
   "property": "C52",
   "status": "proved",
   "theorems": [
    "C52_bruggeman_between",
    "C52_bruggeman_root_exists_unique",
    "C52_bruggeman_equation"
   ],
   "note": ""
  },
  {
   "property": "C53",
   "status": "proved",
   "theorems": [
    "C53_maxwell_garnett_one_inclusion",
    "C53_errors_are_value_errors",
    "C53_bruggeman_lengths",
    "C53_no_gain",
    "C53_nothing_truncated"
   ],
   "note": ""
  },
  {
   "property": "C54",
   "status": "partial",
   "theorems": [
    "C54_cargille_two_terms_partial",
    "C54_cargille_three_terms_refuted",
    "C54_cargille_domain",
    "C54_cargille_valid",
    "C54_cargille_negative_refuted"
   ],
   "note": "False of the code: the third Cauchy term is computed and thrown away, for every oil and wavelength; negative cardinal numbers are accepted. Proved: the two-term value, ValueError otherwise."
  },
  {
   "property": "C55",
   "status": "partial",
   "theorems": [
    "C55_known_material",
    "C55_unknown_material",
    "C55_data_missing",
    "C55_data_interpolates_rounded_partial",
    "C55_data_exact_at_hundredths",
    "C55_data_lengths"
   ],
   "note": "Proved except that the interpolation is at the wavelength rounded to two decimals (see C70); linear interpolation only."
  },
  {
   "property": "C56",
   "status": "partial",
   "theorems": [
    "C56_zero_thickness",
    "C56_monotone",
    "C56_thick_limit",
    "C56_none_is_limit_partial",
    "C56_none_is_limit_refuted"
   ],
   "note": "False of the code for absorbing particles: with a finite thickness the scattered part carries an extra factor sigma_scat/sigma_ext that thickness=None lacks (C56_none_is_limit_refuted). Everything else proved; limit proved for non-absorbing particles. Non-absorbing sample index only."
  },
  {
   "property": "C57",
   "status": "proved",
   "theorems": [
    "C57_additive",
    "C57_homogeneous",
    "C57_nonneg",
    "C57_split",
    "C57_trapezoid_rule"
   ],
   "note": ""
  },
  {
   "property": "C58",
   "status": "proved",
   "theorems": [
    "C58_schulz",
    "C58_narrow",
    "C58_narrow_zero_diameter"
   ],
   "note": ""
  },
  {
   "property": "C59",
   "status": "proved",
   "theorems": [
    "C59_coherent_bound",
    "C59_bound_reached",
    "C59_incoherent_is_reflectance",
    "C59_index_error"
   ],
   "note": ""
  },
  {
   "property": "C60",
   "status": "proved",
   "theorems": [
    "C60_polarised_sum"
   ],
   "note": ""
  },
  {
   "property": "C61",
   "status": "proved",
   "theorems": [
    "C61_coefficients",
    "C61_nonnegative",
    "C61_no_absorption"
   ],
   "note": ""
  },
  {
   "property": "C62",
   "status": "partial",
   "theorems": [
    "C62_diameter_list_partial",
    "C62_repeats_refuted",
    "C62_table_size_refuted",
    "C62_equal_spacing_refuted",
    "C62_levels_partial"
   ],
   "note": "Proved for the default table of 600 points: enough diameters, sorted, on the table, containing mode and half-maximum points. False as stated: repeats for num_diam >= 600, IndexError for num_pdf_points <= 300, one diameter too few with equal_spacing when num_diam is a multiple of 4."
  },
  {
   "property": "C63",
   "status": "proved",
   "theorems": [
    "C63_rough_reflection",
    "C63_rough_refracted_unit",
    "C63_sphere_rejected",
    "C63_rough_refraction_refuted",
    "C63_rough_leaves_plane",
    "C63_slope_density_nonneg"
   ],
   "note": "Property proved as stated; C63_rough_refraction_refuted shows additionally that the refracted direction does not obey Snell's law at the facet."
  },
  {
   "property": "C64",
   "status": "partial",
   "theorems": [
    "C64_excess_bound_partial",
    "C64_sphere_goniometer_refuted"
   ],
   "note": "False of the code: counterexample with weight 1 giving R+T = 5/4. Proved: the excess is at most half the Fresnel-reflected light, and none if at most half of it is sent to the front."
  },
  {
   "property": "C65",
   "status": "partial",
   "theorems": [
    "C65_near_normal_partial",
    "C65_normal_ray_refuted",
    "C65_index_detected_refuted"
   ],
   "note": "False of the code for every position and index pair. Proved: any other ray that meets a detector on the axis is detected."
  },
  {
   "property": "C66",
   "status": "partial",
   "theorems": [
    "C66_stuck_restart_refuted",
    "C66_exit_restart_partial"
   ],
   "note": "False of the code for stuck trajectories (restarted at the pole with zero direction); proved for trajectories that had left the sphere: restart at the crossing point in the mirrored direction."
  },
  {
   "property": "C67",
   "status": "proved",
   "theorems": [
    "C67_maxwell_garnett_passive",
    "C67_bruggeman_loss_between"
   ],
   "note": ""
  },
  {
   "property": "C68",
   "status": "proved",
   "theorems": [
    "C68_index_in_visible",
    "C68_normal_dispersion",
    "C68_vacuum_is_one"
   ],
   "note": ""
  },
  {
   "property": "C69",
   "status": "proved",
   "theorems": [
    "C69_oils_ordered",
    "C69_oil_dispersion"
   ],
   "note": ""
  },
  {
   "property": "C70",
   "status": "partial",
   "theorems": [
    "C70_error_bound_partial",
    "C70_inside_accepted_partial",
    "C70_data_at_requested_wavelength_refuted",
    "C70_data_in_range_accepted_refuted"
   ],
   "note": "False of the code: the wavelength is rounded to 0.01 of the data's unit. Proved: the error is at most 0.005 of the unit times the steepest slope, and wavelengths 0.005 inside are accepted."
  },
  {
   "property": "C71",
   "status": "proved",
   "theorems": [
    "C71_py_positive"
   ],
   "note": ""
  },
  {
   "property": "C72",
   "status": "proved",
   "theorems": [
    "C72_py_low_q",
    "C72_py_high_q"
   ],
   "note": ""
  },
  {
   "property": "C73",
   "status": "proved",
   "theorems": [
    "C73_poly_nonneg",
    "C73_poly_scale"
   ],
   "note": ""
  },
  {
   "property": "C74",
   "status": "proved",
   "theorems": [
    "C74_poly_order",
    "C74_poly_identical_species",
    "C74_poly_absent_species",
    "C74_density"
   ],
   "note": ""
  },
  {
   "property": "C75",
   "status": "proved",
   "theorems": [
    "C75_pdf_scat"
   ],
   "note": ""
  },
  {
   "property": "C76",
   "status": "partial",
   "theorems": [
    "C76_tir_events",
    "C76_tir_first_and_inside",
    "C76_last_event_dropped_refuted"
   ],
   "note": "Proved except for the last event, whose total reflections are never counted (refuted part)."
  },
  {
   "property": "C77",
   "status": "proved",
   "theorems": [
    "C77_path_length"
   ],
   "note": ""
  },
  {
   "property": "C78",
   "status": "partial",
   "theorems": [
    "C78_thetas_partial",
    "C78_last_event_dropped_refuted"
   ],
   "note": "Proved for events before the last; the last event is dropped (refuted part)."
  },
  {
   "property": "C79",
   "status": "proved",
   "theorems": [
    "C79_asymmetry"
   ],
   "note": ""
  },
  {
   "property": "C80",
   "status": "partial",
   "theorems": [
    "C80_average_of_polarisations",
    "C80_normal_incidence_fraction",
    "C80_polarised_fraction_refuted"
   ],
   "note": "False of the code: polarised reflectances are normalised with the unpolarised cross section and can exceed 1. Average and lower bounds proved; upper bound for unpolarised light at normal incidence."
  },
  {
   "property": "C81",
   "status": "partial",
   "theorems": [
    "C81_detector_snell",
    "C81_detector_grid",
    "C81_empty_range",
    "C81_azimuth",
    "C81_forward_range_refuted"
   ],
   "note": "False of the code for forward ranges (theta and 180 deg - theta are folded together, C81_forward_range_refuted); the rest proved."
  },
  {
   "property": "C82",
   "status": "partial",
   "theorems": [
    "C82_density_one_species",
    "C82_density_two_species",
    "C82_density_absent_second",
    "C82_density_absent_first_refuted"
   ],
   "note": "False of the code for concentration (0, 1): the first radius is used. Proved otherwise."
  },
  {
   "property": "C83",
   "status": "proved",
   "theorems": [
    "C83_layers_sum",
    "C83_layer_share"
   ],
   "note": ""
  },
  {
   "property": "C84",
   "status": "proved",
   "theorems": [
    "C84_length_mismatch",
    "C84_form_medium_alone",
    "C84_form_in_matrix",
    "C84_form_in_effective_medium",
    "C84_unknown_form",
    "C84_unknown_structure",
    "C84_polydisperse_arguments",
    "C84_missing_arguments"
   ],
   "note": ""
  },
  {
   "property": "C85",
   "status": "proved",
   "theorems": [
    "C85_cross_section_nonneg",
    "C85_forward_glass_nan",
    "C85_reflection_succeeds"
   ],
   "note": ""
  },
  {
   "property": "C86",
   "status": "partial",
   "theorems": [
    "C86_poly_is_average",
    "C86_unit_free_partial",
    "C86_unit_free_refuted",
    "C86_poly_cross_section"
   ],
   "note": "Average proved. Unit independence false of the code for pdi > 1/3 (absolute floor 1e-6 in the caller's unit); proved for pdi <= 1/3."
  },
  {
   "property": "C87",
   "status": "partial",
   "theorems": [
    "C87_reciprocal_partial",
    "C87_gaussian_symmetric_refuted"
   ],
   "note": "False of the code: the standard deviation is proportional to each diameter, not to the mean. Proved: exactly which distribution it is."
  },
  {
   "property": "C88",
   "status": "proved",
   "theorems": [
    "C88_stays_inside",
    "C88_first_outside",
    "C88_matched_direction",
    "C88_total_reflection"
   ],
   "note": ""
  },
  {
   "property": "C89",
   "status": "partial",
   "theorems": [
    "C89_normalisation_refuted"
   ],
   "note": "False of the code: the polarised intensities lack the division by the number of trajectories."
  },
  {
   "property": "C90",
   "status": "proved",
   "theorems": [
    "C90_common_phase"
   ],
   "note": ""
  },
  {
   "property": "C91",
   "status": "proved",
   "theorems": [
    "C91_times"
   ],
   "note": ""
  },
  {
   "property": "C92",
   "status": "partial",
   "theorems": [
    "C92_absorption_area_refuted"
   ],
   "note": "False of the code: the absorption cross section uses pi r^2, half of the documented value."
  },
  {
   "property": "C93",
   "status": "proved",
   "theorems": [
    "C93_phase_function_distribution",
    "C93_only_scattered",
    "C93_nan"
   ],
   "note": ""
  },
  {
   "property": "C94",
   "status": "partial",
   "theorems": [
    "C94_equator_refuted",
    "C94_zero_weight_refuted",
    "C94_no_error_partial"
   ],
   "note": "False of the code; the theorems give the exact condition for the ValueError in both branches. Proved: no error otherwise."
  },
  {
   "property": "C95",
   "status": "partial",
   "theorems": [
    "C95_overwrites_refuted"
   ],
   "note": "False of the code: refl_indices is overwritten by flags; unchanged exactly when no reflected event is later than the first."
  },
  {
   "property": "C96",
   "status": "proved",
   "theorems": [
    "C96_average_spacing",
    "C96_one_per_cell"
   ],
   "note": ""
  },
  {
   "property": "C97",
   "status": "partial",
   "theorems": [
    "C97_units_refuted",
    "C97_equal_spacing_partial"
   ],
   "note": "False of the code: the table starts at the bare number 1. Proved: the list does scale for equal_spacing=True."
  },
  {
   "property": "C98",
   "status": "proved",
   "theorems": [
    "C98_diameter_probabilities"
   ],
   "note": ""
  },
  {
   "property": "C99",
   "status": "partial",
   "theorems": [
    "C99_poly_event",
    "C99_poly_angles",
    "C99_unknown_parameter_refuted"
   ],
   "note": "Angle and step laws proved for every matching parameter; a parameter outside the list is silently turned into a zero step (refuted part)."
  },
  {
   "property": "C100",
   "status": "proved",
   "theorems": [
    "C100_exit_on_sphere"
   ],
   "note": ""
  },
  {
   "property": "C101",
   "status": "proved",
   "theorems": [
    "C101_goniometer_window",
    "C101_nothing_behind"
   ],
   "note": ""
  },
  {
   "property": "C102",
   "status": "partial",
   "theorems": [
    "C102_uniform_reflector_refuted",
    "C102_reads_low_refuted"
   ],
   "note": "False of the code: an extra factor cos(theta); a uniform reflector reads R cos(theta), a Lambertian one 2 R cos^2(theta)."
  },
  {
   "property": "C103",
   "status": "proved",
   "theorems": [
    "C103_film_run",
    "C103_sphere_run"
   ],
   "note": "Film: sample index at least the medium's, no coarse roughness; spheres: plain calls, non-zero radial draws."
  },
  {
   "property": "C104",
   "status": "proved",
   "theorems": [
    "C104_initial_fields"
   ],
   "note": ""
  },
  {
   "property": "C105",
   "status": "proved",
   "theorems": [
    "C105_fields_transverse"
   ],
   "note": ""
  },
  {
   "property": "C106",
   "status": "proved",
   "theorems": [
    "C106_unit_or_zero",
    "C106_unit"
   ],
   "note": ""
  },
  {
   "property": "C107",
   "status": "partial",
   "theorems": [
    "C107_amplitude_partial",
    "C107_amplitude_refuted"
   ],
   "note": "False of the code (refuted part): the y component is computed from the x component already updated. Proved where S4 vanishes."
  },
  {
   "property": "C108",
   "status": "partial",
   "theorems": [
    "C108_phase",
    "C108_phase_refuted"
   ],
   "note": "Phase proportional to the path proved, but the factor is k^2 instead of k (refuted part)."
  },
  {
   "property": "C109",
   "status": "partial",
   "theorems": [
    "C109_other_rows_partial",
    "C109_no_tir_refuted",
    "C109_cross_talk_refuted",
    "C109_own_angle",
    "C109_own_angle_refuted"
   ],
   "note": "False of the code: rows of all trajectories are overwritten, in the caller's arrays too, even without any total reflection. Proved: rows at which no trajectory is totally reflected are left alone. A reflected trajectory gets the mirrored angle of the scattering before (C109_own_angle); it should be its own (C109_own_angle_refuted)."
  },
  {
   "property": "C110",
   "status": "proved",
   "theorems": [
    "C110_refused",
    "C110_share_is_probability",
    "C110_one_event",
    "C110_array"
   ],
   "note": ""
  },
  {
   "property": "C111",
   "status": "proved",
   "theorems": [
    "C111_refused",
    "C111_law",
    "C111_array",
    "C111_right_law_iff",
    "C111_right_law_refuted"
   ],
   "note": "Law of the draws characterised for all tables; it is the intended one exactly when the column sums of p and p sin are proportional (iff proved), and refuted in general: the azimuth is drawn from marginals without the factor sin(theta)."
  },
  {
   "property": "C112",
   "status": "proved",
   "theorems": [
    "C112_density",
    "C112_ratio"
   ],
   "note": ""
  },
  {
   "property": "C113",
   "status": "proved",
   "theorems": [
    "C113_coefficients",
    "C113_rough_coefficient",
    "C113_rough_needs_matrix"
   ],
   "note": ""
  },
  {
   "property": "C114",
   "status": "proved",
   "theorems": [
    "C114_transport_length"
   ],
   "note": ""
  },
  {
   "property": "C115",
   "status": "partial",
   "theorems": [
    "C115_beer_lambert",
    "C115_particles_count_partial",
    "C115_particles_count_refuted"
   ],
   "note": "Beer-Lambert form proved; documented meaning (absorption of the effective medium) proved with effective_medium_form=True and refuted otherwise."
  },
  {
   "property": "C116",
   "status": "proved",
   "theorems": [
    "C116_polydisperse_needs_pdi",
    "C116_no_polydisperse_shells",
    "C116_matrix_index",
    "C116_missing_species_refuted",
    "C116_struct_switch_ignored_refuted"
   ],
   "note": "Rejections proved; refuted parts: radius2/concentration are never required, effective_medium_struct=False is ignored with effective_medium_form=True."
  },
  {
   "property": "C117",
   "status": "partial",
   "theorems": [
    "C117_real_indices",
    "C117_exit_fractions",
    "C117_entrance_fractions_partial",
    "C117_parallel_above_one_refuted",
    "C117_normal_incidence_refuted"
   ],
   "note": "Agreement with the real case and fractions proved; refuted: for a denser medium the parallel reflectance exceeds 1 exactly when Im n > Re n, and at normal incidence the two polarisations differ for every absorbing medium (the square root of a modulus replaces the complex root)."
  },
  {
   "property": "C118",
   "status": "partial",
   "theorems": [
    "C118_thickness_law",
    "C118_monotone",
    "C118_transport_length",
    "C118_fraction_refuted",
    "C118_surfaces"
   ],
   "note": "Thickness law, monotonicity, bound by the specular reflectance and transport length proved for any non-negative integrator (pymie's is an argument); being a fraction is refuted for Im n > Re n."
  },
  {
   "property": "C119",
   "status": "proved",
   "theorems": [
    "C119_film",
    "C119_dark",
    "C119_sphere"
   ],
   "note": ""
  },
  {
   "property": "C120",
   "status": "proved",
   "theorems": [
    "C120_circular",
    "C120_commutes",
    "C120_impulse",
    "C120_conserves",
    "C120_bad_shapes",
    "C120_one_element"
   ],
   "note": ""
  },
  {
   "property": "C121",
   "status": "proved",
   "theorems": [
    "C121_nearest",
    "C121_smallest_angle",
    "C121_no_exit_points",
    "C121_missing_direction"
   ],
   "note": ""
  },
  {
   "property": "C122",
   "status": "proved",
   "theorems": [
    "C122_field",
    "C122_field_bounds",
    "C122_negative_weight",
    "C122_hard_core",
    "C122_beyond_contact",
    "C122_phase_factor_bound",
    "C122_phase_factor_zero"
   ],
   "note": ""
  },
  {
   "property": "C123",
   "status": "partial",
   "theorems": [
    "C123_no_form_factor",
    "C123_sphere",
    "C123_multilayer_nonneg",
    "C123_polydisperse_average_partial",
    "C123_wrong_size_refuted",
    "C123_broad_refuted",
    "C123_unknown_form",
    "C123_polydisperse_arguments",
    "C123_no_diameter"
   ],
   "note": "refuted parts: x_scat uses the mean diameter for every particle of the distribution (model.py:1019), and a distribution with pdi above 1/3 starts at diameter 0 (model.py:999-1001)"
  },
  {
   "property": "C124",
   "status": "proved",
   "theorems": [
    "C124_bulk_from_positions",
    "C124_bulk_from_directions",
    "C124_phase_function_unit_free"
   ],
   "note": ""
  },
  {
   "property": "C125",
   "status": "proved",
   "theorems": [
    "C125_constant_indices"
   ],
   "note": ""
  },
  {
   "property": "C126",
   "status": "proved",
   "theorems": [
    "C126_coefficients",
    "C126_spheres",
    "C126_rough_coefficient"
   ],
   "note": ""
  },
  {
   "property": "C127",
   "status": "proved",
   "theorems": [
    "C127_transport_length",
    "C127_penetration"
   ],
   "note": ""
  },
  {
   "property": "C128",
   "status": "proved",
   "theorems": [
    "C128_coefficients"
   ],
   "note": ""
  },
  {
   "property": "C129",
   "status": "proved",
   "theorems": [
    "C129_angles_of_phase_function",
    "C129_angles_of_fields"
   ],
   "note": ""
  },
  {
   "property": "C130",
   "status": "proved",
   "theorems": [
    "C130_shares",
    "C130_split",
    "C130_complete"
   ],
   "note": ""
  },
  {
   "property": "C131",
   "status": "proved",
   "theorems": [
    "C131_surface",
    "C131_same_result"
   ],
   "note": ""
  },
  {
   "property": "C132",
   "status": "proved",
   "theorems": [
    "C132_film_heights",
    "C132_turned"
   ],
   "note": ""
  },
  {
   "property": "C133",
   "status": "proved",
   "theorems": [
    "C133_units",
    "C133_sphere_refuted"
   ],
   "note": "refuted for spheres whose surface refracts: exit_kz rotates about an axis that is not normalised (detector.py:exit_kz/rotate_refract), so the classification of one ray depends on the unit of length"
  },
  {
   "property": "C134",
   "status": "proved",
   "theorems": [
    "C134_more_events"
   ],
   "note": ""
  },
  {
   "property": "C135",
   "status": "proved",
   "theorems": [
    "C135_order"
   ],
   "note": ""
  },
  {
   "property": "C136",
   "status": "proved",
   "theorems": [
    "C136_dimmer",
    "C136_more_absorption",
    "C136_aperture_refuted"
   ],
   "note": "proved for detection of the whole hemisphere; refuted for limited detection angles (refl_det_frac of the light that left is applied to the stuck light)"
  },
  {
   "property": "C137",
   "status": "proved",
   "theorems": [
    "C137_aperture",
    "C137_same_failures"
   ],
   "note": ""
  },
  {
   "property": "C138",
   "status": "proved",
   "theorems": [
    "C138_slope_law",
    "C138_facets_drawn",
    "C138_facets_reached",
    "C138_flat"
   ],
   "note": ""
  },
  {
   "property": "C139",
   "status": "proved",
   "theorems": [
    "C139_snell_at_facet",
    "C139_rough_launch",
    "C139_normal_incidence",
    "C139_sphere_rejected"
   ],
   "note": ""
  },
  {
   "property": "C140",
   "status": "proved",
   "theorems": [
    "C140_rough_run",
    "C140_balance",
    "C140_gentle_slopes_conserve",
    "C140_steep_slopes_lose_refuted"
   ],
   "note": "bounds, exact balance and conservation for facets below 45 degrees proved; conservation refuted for steeper facets: light reflected downwards by a facet is dropped (detector.py, kz0_refl branch of the detection of the incident reflection)"
  },
  {
   "property": "C141",
   "status": "proved",
   "theorems": [
    "C141_fields_errors"
   ],
   "note": ""
  },
  {
   "property": "C142",
   "status": "proved",
   "theorems": [
    "C142_high_q",
    "C142_dilute",
    "C142_normalisation"
   ],
   "note": ""
  },
  {
   "property": "C143",
   "status": "proved",
   "theorems": [
    "C143_schulz",
    "C143_moments",
    "C143_bounded",
    "C143_consistent"
   ],
   "note": ""
  },
  {
   "property": "C144",
   "status": "partial",
   "theorems": [
    "C144_tables_match_labels",
    "C144_returned_near_label_partial",
    "C144_labels_refuted"
   ],
   "note": "the tables match the labels to 5e-5 (proved for all oils); the returned value drops the third Cauchy term (refractive_index.py:421) and is within 4e-4 for AAA/AA/acrylic but 0.0003-0.0098 too low for series A, B, E (refuted)"
  },
  {
   "property": "C145",
   "status": "proved",
   "theorems": [
    "C145_floor",
    "C145_monodisperse",
    "C145_form_factor_zero"
   ],
   "note": ""
  },
  {
   "property": "C146",
   "status": "proved",
   "theorems": [
    "C146_film",
    "C146_sphere"
   ],
   "note": ""
  },
  {
   "property": "C147",
   "status": "proved",
   "theorems": [
    "C147_bulk_film",
    "C147_from_sphere_run",
    "C147_nothing_scattered"
   ],
   "note": ""
  },
  {
   "property": "C148",
   "status": "proved",
   "theorems": [
    "C148_calc_scat",
    "C148_film"
   ],
   "note": "Whole calculation for a film, scaled by l. Assumed of pymie's integrator for absorbing media: it returns an area (l^2). Relative widths of the sizes <= 1/3 (C86 refutes wider ones), scattering coefficient not exactly 0, no goniometer and no re-runs. Examples: a dyed sample in nanometres; a binary polydisperse sample with a rough surface."
  },
  {
   "property": "C149",
   "status": "proved",
   "theorems": [
    "C149_film",
    "C149_smooth",
    "C149_fine_keeps",
    "C149_tiny_roughness"
   ],
   "note": "Index of the sample not below that of the medium (in an optically thinner film the light can fail to enter through a facet). Positive coefficients and some scattering other than exactly backwards are hypotheses; where r <> 0 the exact deficit is that of C140; the Example meets them with 30 % fine roughness and slope 1/2."
  },
  {
   "property": "C150",
   "status": "proved",
   "theorems": [
    "C150_fate",
    "C150_thicker",
    "C150_run",
    "C150_contrast"
   ],
   "note": "Index-matched films, full detection, no coverslips, no re-runs, zlow = 0. With absorption the comparison holds up to 10^-9 (the code's EPS regularisation), without absorption exactly. C150_contrast shows index matching is needed for single paths; nothing is claimed about films with an index contrast."
  },
  {
   "property": "C151",
   "status": "proved",
   "theorems": [
    "C151_pool",
    "C151_copies",
    "C151_film_not_average"
   ],
   "note": "Full detection (with a partial aperture the detected fraction of the Fresnel light is itself an ensemble quantity), no goniometer, no coarse roughness, no re-runs. C151_film_not_average is the counterexample to exact averaging of films."
  },
  {
   "property": "C152",
   "status": "proved",
   "theorems": [
    "C152_fields_run",
    "C152_workflow",
    "C152_own_fields",
    "C152_nan_refused",
    "C152_dark"
   ],
   "note": ""
  },
  {
   "property": "C153",
   "status": "proved",
   "theorems": [
    "C153_unique",
    "C153_phases",
    "C153_run"
   ],
   "note": ""
  },
  {
   "property": "C154",
   "status": "proved",
   "theorems": [
    "C154_local_frame",
    "C154_heights",
    "C154_film_law"
   ],
   "note": ""
  },
  {
   "property": "C155",
   "status": "partial",
   "theorems": [
    "C155_mean_direction",
    "C155_local_cosine",
    "C155_cosine_refuted",
    "C155_fixed_azimuth_refuted"
   ],
   "note": "mean direction proved; mean cosine between directions refuted: scatter gives the product of cosines times the mean square z component of the earlier direction (montecarlo.py:225-234); fixed-azimuth oblique launch refuted"
  },
  {
   "property": "C156",
   "status": "partial",
   "theorems": [
    "C156_exit_weight",
    "C156_exit_weight_refuted",
    "C156_direct_law",
    "C156_beer_lambert",
    "C156_beer_lambert_refuted"
   ],
   "note": "Proved for non-absorbing films (C156_beer_lambert). With absorption the code attenuates over the whole last step, including its part outside the film: C156_direct_law gives the exact mean, smaller by mu_scat/(mu_scat+mu_abs), and C156_beer_lambert_refuted / C156_exit_weight_refuted show the claim false."
  },
  {
   "property": "C157",
   "status": "proved",
   "theorems": [
    "C157_sphere",
    "C157_film_let_through",
    "C157_film_bias",
    "C157_film_unbiased_refuted"
   ],
   "note": "Proved for spheres (C157_sphere) and for the light let through by the surfaces of a film (C157_film_let_through). For films the reflectance itself is biased: light sent back by the surfaces is split in the ratio of the ensemble sums (detector.py:1226 ff.); C157_film_bias bounds the bias, C157_film_unbiased_refuted shows it nonzero. No re-runs, goniometer or coarse roughness."
  },
  {
   "property": "C158",
   "status": "partial",
   "theorems": [
    "C158_slab",
    "C158_law",
    "C158_single_scattering",
    "C158_absorbing_refuted"
   ],
   "note": "Proved without absorption (C158_single_scattering). With absorption C158_law gives the exact mean, smaller than the claim by another factor mu_scat/(mu_scat+mu_abs) (the weight is attenuated over the whole last step, also outside the film), so the claim is refuted there (C158_absorbing_refuted). Smooth films at normal incidence, no re-runs or goniometer."
  },
  {
   "property": "C159",
   "status": "proved",
   "theorems": [
    "C159_exit_weight",
    "C159_direct_law",
    "C159_parallel_beam"
   ],
   "note": ""
  },
  {
   "property": "C160",
   "status": "proved",
   "theorems": [
    "C160_path_law",
    "C160_film",
    "C160_sphere",
    "C160_more_absorption_less_light",
    "C160_path_inside_refuted"
   ],
   "note": "proved: the exponential law in the path length reported by calc_path_length, for arbitrary trajectories and for whole film and sphere runs, and monotony in the coefficient. The natural reading with the path inside the sample is refuted by C160_path_inside_refuted (overshoot of the last step)."
  },
  {
   "property": "C161",
   "status": "proved",
   "theorems": [
    "C161_mean_position",
    "C161_spread",
    "C161_transport_length",
    "C161_mean_step"
   ],
   "note": ""
  },
  {
   "property": "C162",
   "status": "proved",
   "theorems": [
    "C162_law",
    "C162_thin_film"
   ],
   "note": "With absorption the code's mean carries albedo^2 instead of albedo (C158_absorbing_refuted); C162_law states the code's value, C162_thin_film is for non-absorbing samples."
  },
  {
   "property": "C163",
   "status": "proved",
   "theorems": [
    "C163_bruggeman_wiener",
    "C163_garnett_wiener",
    "C163_hashin_shtrikman",
    "C163_bruggeman_order",
    "C163_bruggeman_index_monotone",
    "C163_bruggeman_fraction_monotone",
    "C163_dilute"
   ],
   "note": ""
  },
  {
   "property": "C164",
   "status": "proved",
   "theorems": [
    "C164_sphere",
    "C164_film_let_through",
    "C164_film",
    "C164_enough"
   ],
   "note": ""
  },
  {
   "property": "C165",
   "status": "proved",
   "theorems": [
    "C165_film_let_through",
    "C165_film",
    "C165_sphere"
   ],
   "note": ""
  },
  {
   "property": "C166",
   "status": "proved",
   "theorems": [
    "C166_inside",
    "C166_let_through",
    "C166_converges",
    "C166_reach"
   ],
   "note": ""
  },
  {
   "property": "C167",
   "status": "proved",
   "theorems": [
    "C167_angles",
    "C167_angles_real",
    "C167_leaves"
   ],
   "note": ""
  },
  {
   "property": "C168",
   "status": "proved",
   "theorems": [
    "C168_inside",
    "C168_changes",
    "C168_converges"
   ],
   "note": ""
  },
  {
   "property": "C169",
   "status": "proved",
   "theorems": [
    "C169_same_limit",
    "C169_sample"
   ],
   "note": ""
  },
  {
   "property": "C170",
   "status": "proved",
   "theorems": [
    "C170_all_reflections",
    "C170_both_ways",
    "C170_matched_slip",
    "C170_best_slip"
   ],
   "note": ""
  },
  {
   "property": "C171",
   "status": "proved",
   "theorems": [
    "C171_shape",
    "C171_transmission"
   ],
   "note": ""
  },
  {
   "property": "C172",
   "status": "proved",
   "theorems": [
    "C172_fine_angles",
    "C172_distribution"
   ],
   "note": ""
  },
  {
   "property": "C173",
   "status": "proved",
   "theorems": [
    "C173_layers",
    "C173_rays",
    "C173_keeps_order",
    "C173_bends",
    "C173_aperture"
   ],
   "note": ""
  },
  {
   "property": "C174",
   "status": "proved",
   "theorems": [
    "C174_virial",
    "C174_compressibility",
    "C174_denser",
    "C174_dilute"
   ],
   "note": ""
  },
  {
   "property": "C175",
   "status": "proved",
   "theorems": [
    "C175_window",
    "C175_detects",
    "C175_once",
    "C175_no_gap",
    "C175_mirror"
   ],
   "note": ""
  },
  {
   "property": "C176",
   "status": "proved",
   "theorems": [
    "C176_at_least",
    "C176_bare",
    "C176_coverslip"
   ],
   "note": ""
  },
  {
   "property": "C177",
   "status": "proved",
   "theorems": [
    "C177_dark_film",
    "C177_black_film",
    "C177_dark_sphere",
    "C177_bare"
   ],
   "note": ""
  },
  {
   "property": "C178",
   "status": "proved",
   "theorems": [
    "C178_path_lengths",
    "C178_shape",
    "C178_not_too_fast",
    "C178_film"
   ],
   "note": ""
  },
  {
   "property": "C179",
   "status": "proved",
   "theorems": [
    "C179_least_head_on",
    "C179_high_index_dips",
    "C179_film"
   ],
   "note": ""
  }
 ]
}