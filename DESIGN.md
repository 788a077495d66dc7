# Formal model of structural-color (structcol) in Coq 8.16

## 1. Approach

`/repo/structcol` is a numerical package. What a user relies on is not one
number but laws that hold for *every* input: fractions stay in [0,1], energy is
conserved for every set of random draws, Snell's law holds, every trajectory is
counted once. The model is a shallow embedding, function by function, of the
Python source:

* **Numbers.** Python floats are modelled by Coq's real numbers `R` (exact
  arithmetic) and Coquelicot's complex numbers. Rounding is not modelled. Where
  IEEE special values steer the program, they are explicit: `num := option R`,
  with `None` = NaN (or a division by zero); comparisons with `None` are false,
  as in IEEE. Where the code relies on infinities (`1/0` in concentrations,
  infinite coordinates) the model has its own case.
* **Exceptions** are values: `result A := Ok a | Err e`.
* **Arrays** are lists. A (nevents, ntraj) array is a list of per-trajectory
  columns where the code works column by column; where the code couples
  trajectories (whole-array tests, fancy indexing, in-place updates) the model
  does too.
* **Random draws** are arguments: a theorem holds for every value of the draws.
* **Externals** (pymie, scipy's fsolve, factorial at real arguments) are
  function arguments; what is assumed about them is a hypothesis of the theorem
  (usually only that intensities are not negative).
* **Units** (pint) are stripped: all lengths in one unit, angles in rad. Where
  the code uses bare numbers whose meaning depends on the unit, the model keeps
  them and C86, C97 are about that.

Theorems about R are about the algorithm in exact arithmetic; they say nothing
about rounding error.

A property the code violates is kept in the list as the user would state it; the
file then has a theorem ending in `_refuted` (a counterexample, or a proof that
it fails for every input of a class) next to theorems for the part that holds,
and the claim is marked partial. Names ending in `_partial` prove the property
under an extra restriction.

## 2. Files (rocq/theories)

| file | contents |
|---|---|
| `Num.v` | numeric prelude: results, NaN, boolean comparisons, sums, argmax, trapezoid, linspace |
| `Spec*.v` | independent vocabulary of the statements (vectors, Snell's law, fractions, cross sections, what a draw picks, ...); no reference to the model's algorithms except its argument records |
| `M_*.v` | the model, no proofs, every definition cites file and lines |
| `L_*.v` | lemmas and proofs |
| `Properties_*.v` | the property theorems, each followed by `Print Assumptions` and an `Example` showing that its hypotheses can be met |

## 3. What is modelled and what is not

| module | modelled | not modelled |
|---|---|---|
| `__init__.py` | refraction, normalize, select_events | unit registry |
| `model.py` | reflection (both branches; pymie's integrator of intensities in absorbing media is an argument), differential_cross_section and polydisperse_form_factor (scattering plane, real and complex media; cartesian for spheres), size_distribution, _integrate_cross_section, fresnel_reflection/transmission (real and complex indices), _number_density, absorption_cross_section | Mie solvers (arguments), polydisperse particles in cartesian coordinates |
| `montecarlo.py` | Trajectory.absorb/scatter/move/calc_fields, initialize (film and sphere, coarse roughness), calc_scat and phase_function (real and complex indices, fields=True), sample_angles, sample_step, coarse_roughness_enter, P_theta_a, a whole run (smooth and rough films, spheres, bulk films) | MCSimulation/MCResult (empty shells), plotting, polydisperse samples with fields=True (marked TODO in the code) |
| `detector.py` | everything: geometry, exits, event indices, weights, Fresnel corrections, detection, redistribution, calc_refl_trans, run_sphere_fresnel_traj, goniometer, TIR helpers, haze | plotting switches; re-run trajectories are arguments (draws) |
| `detector_polarization_phase.py` | all three functions | |
| `event_distribution.py` | all computations | plotting, save_data, deprecated phase=True branch |
| `phase_func_sphere.py` | get_exit_pos, calc_pdf (phi-independent), calc_d_avg, calc_mu_scat_abs, calc_scat_bulk, size_distribution, calc_diam_list, sample_diams, sample_concentration, sample_angles_step_poly, conv_circ, calc_directions | plotting, phi-dependent calc_pdf (calls pdf(nu, phi_range), a TypeError); kernel density estimates are arguments |
| `refractive_index.py` | every material formula, n (lookup), n_cargille, n_eff (Maxwell Garnett and Bruggeman) | file reading; spline kinds other than linear |
| `structure.py` | factor_py, factor_para, factor_poly, factor_data, the direct correlation function, radial_dist_py and its transforms, field_phase_py, phase_factor | the spline between grid points (argument), field_phase_data (the same interpolation as factor_data on a file) |


## 4. Per property

Each entry: status; what is modelled (the Properties file names the theory; its imports name the model files); how it is proved; theorems; what is missing or false.

* **C01 Fresnel reflectances are fractions** (proved). Models structcol/model.py:fresnel_reflection, in `Properties_fresnel`. Proof: array function of all three branches (below, at, beyond the critical angle); real algebra with sin^2+cos^2=1 and explicit denominators. Theorems: `C01_fresnel_fractions`.
* **C02 Reflection plus transmission is one** (proved). Models structcol/model.py:fresnel_transmission, structcol/model.py:fresnel_reflection, in `Properties_fresnel`. Proof: array function of all three branches (below, at, beyond the critical angle); real algebra with sin^2+cos^2=1 and explicit denominators. Theorems: `C02_fresnel_sum_one`.
* **C03 Angles past 90 degrees are rejected, and only those** (proved). Models structcol/model.py:fresnel_reflection, in `Properties_fresnel`. Proof: the raise condition of the model characterised by an iff over the whole angle array. Theorems: `C03_rejects_iff_past_right_angle`, `C03_accepts_otherwise`.
* **C04 Fresnel's equations** (proved). Models structcol/model.py:fresnel_reflection, in `Properties_fresnel`. Proof: array function of all three branches (below, at, beyond the critical angle); real algebra with sin^2+cos^2=1 and explicit denominators. Theorems: `C04_fresnel_equations`, `C04_refracted_angle_exists`.
* **C05 Total internal reflection is total, and nothing else is** (proved). Models structcol/model.py:fresnel_reflection, in `Properties_fresnel`. Proof: both directions: inside the mask the coefficients are 1, outside they are strictly below 1. Theorems: `C05_total_internal_reflection`, `C05_not_total_below_critical`.
* **C06 Fresnel reciprocity** (proved). Models structcol/model.py:fresnel_reflection, in `Properties_fresnel`. Proof: array function of all three branches (below, at, beyond the critical angle); real algebra with sin^2+cos^2=1 and explicit denominators. Theorems: `C06_reciprocity`.
* **C07 Special angles of the Fresnel coefficients** (proved). Models structcol/model.py:fresnel_reflection, in `Properties_fresnel`. Proof: array function of all three branches (below, at, beyond the critical angle); real algebra with sin^2+cos^2=1 and explicit denominators. Theorems: `C07_normal_incidence`, `C07_no_contrast`, `C07_brewster`.
* **C08 Fresnel reflection depends on the size of the angle only** (partial). Models structcol/model.py:fresnel_reflection, in `Properties_fresnel`. Proof: case split at the critical angle; counterexample beyond it. Theorems: `C08_even_below_critical_partial`, `C08_even_refuted`. False of the code past the critical angle (negative angles escape the TIR mask): C08_even_refuted. Proved below the critical angle.
* **C09 Snell's law in refraction()** (proved). Models structcol/__init__.py:refraction, in `Properties_init`. Proof: direct computation on the modelled helper, NaN as None. Theorems: `C09_refraction_snell`, `C09_refraction_nan`, `C09_refraction_roundtrip`, `C09_refraction_same_medium`.
* **C10 normalize() returns unit vectors** (proved). Models structcol/__init__.py:normalize, in `Properties_init`. Proof: direct computation on the modelled helper, NaN as None. Theorems: `C10_normalize`.
* **C11 select_events picks exactly the requested event** (proved). Models structcol/__init__.py:select_events, in `Properties_init`. Proof: direct computation on the modelled helper, NaN as None. Theorems: `C11_select_events`, `C11_select_events_out_of_range`.
* **C12 Scattering keeps directions unit vectors** (proved). Models structcol/montecarlo.py:Trajectory.scatter, in `Properties_montecarlo`. Proof: induction over the list of events of a trajectory, trajectories independent. Theorems: `C12_scatter_keeps_length`, `C12_scatter_succeeds`.
* **C13 Scattering turns the direction by the sampled angle** (partial). Models structcol/montecarlo.py:Trajectory.scatter, in `Properties_montecarlo`. Proof: exact direction for directions along z; counterexample for another direction. Theorems: `C13_scatter_angle_partial`, `C13_scatter_angle_y`, `C13_scatter_angle_refuted`. False of the code: scatter rotates about fixed axes. Proved for directions along z; refuted in general.
* **C14 Absorption follows Beer-Lambert along the path** (proved). Models structcol/montecarlo.py:Trajectory.absorb, in `Properties_montecarlo`. Proof: induction over the list of events of a trajectory, trajectories independent. Theorems: `C14_beer_lambert`, `C14_weights_bounded`, `C14_weights_decrease`, `C14_no_absorption`.
* **C15 Moves add up** (proved). Models structcol/montecarlo.py:Trajectory.move, in `Properties_montecarlo`. Proof: induction over the list of events of a trajectory, trajectories independent. Theorems: `C15_positions_add_up`, `C15_one_more_position`, `C15_consecutive_positions`, `C15_distance_below_path`.
* **C16 Step lengths are exponentially distributed** (proved). Models structcol/montecarlo.py:sample_step, in `Properties_montecarlo`. Proof: inverse-transform law: step <= L iff the draw is below 1-exp(-mu L). Theorems: `C16_exponential_law`.
* **C17 Fine roughness changes the first step of the requested share of trajectories, and nothing else** (proved). Models structcol/montecarlo.py:sample_step, in `Properties_montecarlo`, `Properties_tight`. Proof: induction over the list of events of a trajectory, trajectories independent. Theorems: `C17_fine_roughness_range`, `C17_fine_roughness_share`, `C17_no_events`.
* **C18 Film launches start on the surface, inside the spot, with unit directions** (proved). Models structcol/montecarlo.py:initialize, in `Properties_montecarlo`. Proof: draws are arguments; trigonometric identities; square roots by sqr_inj arguments. Theorems: `C18_film_launch`, `C18_film_launch_errors`, `C18_spot_uniform`, `C18_spot_filled`.
* **C19 Sphere launches start on the illuminated half of the sphere** (proved). Models structcol/montecarlo.py:initialize, in `Properties_montecarlo`. Proof: draws are arguments; trigonometric identities; square roots by sqr_inj arguments. Theorems: `C19_sphere_launch`, `C19_sphere_uniform`, `C19_sphere_needs_diameter`.
* **C20 Entering a sphere obeys Snell's law** (partial). Models structcol/montecarlo.py:initialize, in `Properties_montecarlo`. Proof: draws are arguments; trigonometric identities; square roots by sqr_inj arguments. Theorems: `C20_sphere_entry_is_normal`, `C20_sphere_entry_refuted`, `C20_sphere_axis_nan`. False of the code: without index contrast trajectories start along the inward normal, not +z; NaN on the axis.
* **C21 Sampled phase functions are probability distributions** (proved). Models structcol/montecarlo.py:phase_function, structcol/montecarlo.py:sample_angles, in `Properties_montecarlo`. Proof: numpy's choice modelled by cumulative sums; induction shows that a draw falls in exactly one interval, of length the item's share. Theorems: `C21_phase_function_distribution`, `C21_sampling_distribution`.
* **C22 Film exits are classified once** (proved). Models structcol/detector.py:find_valid_exits, in `Properties_detector`. Proof: first-exit search over the event list: induction, uniqueness of the least index. Theorems: `C22_film_exits`, `C22_never_both`. The exit flags are characterised exactly for n_medium <= n_sample.
* **C23 Every trajectory has exactly one outcome** (proved). Models structcol/detector.py:find_event_indices, in `Properties_detector`. Proof: first-exit search over the event list: induction, uniqueness of the least index. Theorems: `C23_one_outcome`, `C23_trajectory_outcome`.
* **C24 First exit of a film trajectory is the physical one** (proved). Models structcol/detector.py:find_valid_exits, structcol/detector.py:find_event_indices, in `Properties_detector`. Proof: first-exit search over the event list: induction, uniqueness of the least index. Theorems: `C24_first_exit_physical`.
* **C25 z_low only shifts the coordinate system** (partial). Models structcol/detector.py:find_valid_exits, in `Properties_detector`. Proof: refutation by an explicit or universally quantified counterexample, plus the positive case proved by the same lemmas as the neighbouring property. Theorems: `C25_z_low_partial`, `C25_z_low_refuted`. False of the code: the thickness argument is the z coordinate of the back face. Proved when it is shifted too.
* **C26 Light can leave into a denser medium** (partial). Models structcol/detector.py:find_valid_exits, in `Properties_companion`, `Properties_detector`. Proof: refutation by an explicit or universally quantified counterexample, plus the positive case proved by the same lemmas as the neighbouring property. Theorems: `C26_equal_indices_partial`, `C26_denser_medium_refuted`. False of the code, for every trajectory: in a denser medium nothing leaves a film. Proved: with equal indices every first crossing is an exit.
* **C27 Outcome weights are a split of the incident weight** (proved). Models structcol/detector.py:calc_outcome_weights, in `Properties_detector`. Proof: per-trajectory weight splits summed over arbitrary lists of trajectories; the re-run recursion by induction on the call depth with adversarial draws. Theorems: `C27_outcome_weights`.
* **C28 Coverslip pass fraction is a fraction** (proved). Models structcol/detector.py:fresnel_pass_frac, in `Properties_detector`. Proof: two-interface series in closed form, bounds by algebra. Theorems: `C28_pass_fraction`, `C28_raises_past_right_angle`.
* **C29 Fresnel exit correction splits each weight** (proved). Models structcol/detector.py:fresnel_correct_exit, in `Properties_detector`. Proof: per-trajectory weight splits summed over arbitrary lists of trajectories; the re-run recursion by induction on the call depth with adversarial draws. Theorems: `C29_exit_split`, `C29_film_never_raises`.
* **C30 Detection aperture only removes weight** (proved). Models structcol/detector.py:detect_correct, in `Properties_detector`. Proof: per-trajectory weight splits summed over arbitrary lists of trajectories; the re-run recursion by induction on the call depth with adversarial draws. Theorems: `C30_keeps_or_drops`, `C30_monotone`, `C30_full_aperture`.
* **C31 Film energy conservation without absorption** (proved). Models structcol/detector.py:calc_refl_trans, structcol/detector.py:distribute_ambig_traj_weights, in `Properties_detector`. Proof: per-trajectory weight splits summed over arbitrary lists of trajectories; the re-run recursion by induction on the call depth with adversarial draws. Theorems: `C31_film_energy`, `C31_film_energy_rough`.
* **C32 Film reflectance and transmittance are fractions** (proved). Models structcol/detector.py:calc_refl_trans, in `Properties_detector`. Proof: per-trajectory weight splits summed over arbitrary lists of trajectories; the re-run recursion by induction on the call depth with adversarial draws. Theorems: `C32_fractions`. Covers films with every parameter (including re-runs) and spheres without goniometer; steps of re-runs non-negative.
* **C33 calc_refl_trans always returns numbers** (partial). Models structcol/detector.py:calc_refl_trans, structcol/detector.py:fresnel_correct_exit, in `Properties_detector`. Proof: refutation by an explicit or universally quantified counterexample, plus the positive case proved by the same lemmas as the neighbouring property. Theorems: `C33_numbers_refuted`, `C33_denser_medium_nan`, `C33_film_never_raises`, `C33_film_number_partial`, `C33_sphere_numbers`. False of the code: a non-absorbing film no trajectory leaves gives NaN, as does any film in a denser medium. Proved: films never raise, give numbers once a trajectory leaves (coverslips not below the medium index), spheres always give numbers.
* **C34 Sphere energy conservation through re-run trajectories** (proved). Models structcol/detector.py:calc_refl_trans, structcol/detector.py:run_sphere_fresnel_traj, in `Properties_detector`. Proof: per-trajectory weight splits summed over arbitrary lists of trajectories; the re-run recursion by induction on the call depth with adversarial draws. Theorems: `C34_sphere_energy`, `C34_sphere_absorbing`.
* **C35 Recursion depth honours max_call_depth** (partial). Models structcol/detector.py:calc_refl_trans, structcol/detector.py:run_sphere_fresnel_traj, in `Properties_detector`. Proof: refutation by an explicit or universally quantified counterexample, plus the positive case proved by the same lemmas as the neighbouring property. Theorems: `C35_depth_refuted`, `C35_depth_zero_partial`. False of the code for every positive max_call_depth: nested calls use the default 20. True for 0.
* **C36 Re-runs terminate** (proved). Models structcol/detector.py:calc_refl_trans, in `Properties_detector`. Proof: induction over fuel: the depth counter decreases, so fuel above the limit never runs out. Theorems: `C36_terminates`.
* **C37 Sphere exit point** (proved). Models structcol/detector.py:find_vec_sphere_intersect, in `Properties_detector`. Proof: vector algebra on the exact rational/sqrt expressions. Theorems: `C37_exit_point`.
* **C38 Rotation helper is a rotation** (proved). Models structcol/detector.py:rotate_refract, in `Properties_detector`. Proof: vector algebra on the exact rational/sqrt expressions. Theorems: `C38_rotation`.
* **C39 Directions refracted out of a sphere obey Snell's law** (partial). Models structcol/detector.py:exit_kz, in `Properties_detector`, `Properties_returned`. Proof: universally quantified failure of the formula and the special case that is right. Theorems: `C39_no_contrast_partial`, `C39_exit_kz_refuted`, `C39_exit_kz_value_refuted`. False of the code: wrong sign for a whole family of rays. True without index contrast.
* **C40 Reflection inside the sphere** (proved). Models structcol/detector.py:rotate_reflect, in `Properties_detector`. Proof: vector algebra on the exact rational/sqrt expressions. Theorems: `C40_reflection`.
* **C41 Goniometer refraction obeys Snell's law** (proved). Models structcol/detector.py:calc_refracted_direction, in `Properties_detector`. Proof: vector algebra on the exact rational/sqrt expressions. Theorems: `C41_goniometer_refraction`.
* **C42 TIR correction touches TIR trajectories only** (partial). Models structcol/detector.py:shift_traj_tir, structcol/detector.py:select_tir_traj, in `Properties_detector`. Proof: universally quantified failure of the formula and the special case that is right. Theorems: `C42_tir_shift_refuted`, `C42_ignores_event`, `C42_keeps_partial`. False of the code: the TIR event is ignored. x, y, weights and |z| are kept.
* **C43 Infinite coordinates are clamped** (partial). Models structcol/detector.py:inf_to_large, in `Properties_detector`. Proof: universally quantified failure of the formula and the special case that is right. Theorems: `C43_clamp_refuted`, `C43_clamp_partial`. False of the code for z0 (no lower clamp). Proved for the other five coordinates.
* **C44 Haze is a fraction** (proved). Models structcol/detector.py:calc_haze, in `Properties_detector`. Proof: ratio of partial sums of non-negative weights. Theorems: `C44_haze`.
* **C45 Event distribution adds up** (proved). Models structcol/event_distribution.py:calc_refl_trans_event, in `Properties_events`. Proof: sums over events and trajectories regrouped (double-sum exchange), functional array updates. Theorems: `C45_event_distribution`, `C45_event_distribution_total`.
* **C46 Fresnel event redistribution conserves weight and stays in bounds** (partial). Models structcol/event_distribution.py:calc_refl_event_fresnel_pdf, structcol/event_distribution.py:calc_refl_event_fresnel_avg, in `Properties_events`. Proof: sums over events and trajectories regrouped (double-sum exchange), functional array updates. Theorems: `C46_fresnel_pdf`, `C46_fresnel_avg_partial`, `C46_fresnel_avg_raises_refuted`. pdf redistribution proved; average-event redistribution proved when both outcomes occur, raises otherwise (refuted part).
* **C47 Averages use all the caller's arguments** (partial). Models structcol/event_distribution.py:calc_refl_trans_event_traj, in `Properties_events`, `Properties_refused`. Proof: sums over events and trajectories regrouped (double-sum exchange), functional array updates. Theorems: `C47_arguments_ignored_refuted`, `C47_returns_event_numbers_refuted`, `C47_entries_refuted`, `C47_too_few_indices`. False of the code: the per-trajectory reflectances and transmission events passed in do not matter; event numbers are returned.
* **C48 Percus-Yevick structure factor is the transform of the Percus-Yevick direct correlation function** (proved). Models structcol/structure.py:factor_py, structcol/structure.py:c0, structcol/structure.py:c1, structcol/structure.py:c3, in `Properties_structure`. Proof: the numpy formula equals 1/(1 - n c(q)) with c(q) the Fourier integral of the direct correlation function, evaluated by an explicit antiderivative (Coquelicot is_RInt). Theorems: `C48_py_is_transform`, `C48_direct_correlation_range`.
* **C49 Paracrystal structure factor bounds** (proved). Models structcol/structure.py:factor_para, in `Properties_structure`. Proof: positivity by writing the factor as a modulus squared or a quotient of positive terms; limits as epsilon-delta statements. Theorems: `C49_para_bounds`, `C49_para_disorder_limit`.
* **C50 Interpolated structure factor stays within the data** (proved). Models structcol/structure.py:factor_data, in `Properties_structure`. Proof: linear interpolation as a convex combination, induction over the sorted table. Theorems: `C50_data_at_points`, `C50_data_between`, `C50_data_range`, `C50_data_outside`, `C50_data_answered`.
* **C51 Effective index lies between the constituents** (proved). Models structcol/refractive_index.py:n_eff, in `Properties_refractive_index`. Proof: complex algebra; Bruggeman through its quadratic/cubic and the intermediate value bound of any root fsolve may return; imaginary parts by sign analysis of Csqrt. Theorems: `C51_maxwell_garnett_between`, `C51_maxwell_garnett_ends`, `C51_maxwell_garnett_monotone`, `C51_maxwell_garnett_relation`.
* **C52 Bruggeman root lies between the constituents** (proved). Models structcol/refractive_index.py:n_eff, in `Properties_refractive_index`. Proof: complex algebra; Bruggeman through its quadratic/cubic and the intermediate value bound of any root fsolve may return; imaginary parts by sign analysis of Csqrt. Theorems: `C52_bruggeman_between`, `C52_bruggeman_root_exists_unique`, `C52_bruggeman_equation`.
* **C53 Effective-index input checking** (proved). Models structcol/refractive_index.py:n_eff, in `Properties_refractive_index`. Proof: complex algebra; Bruggeman through its quadratic/cubic and the intermediate value bound of any root fsolve may return; imaginary parts by sign analysis of Csqrt. Theorems: `C53_maxwell_garnett_one_inclusion`, `C53_errors_are_value_errors`, `C53_bruggeman_lengths`, `C53_no_gain`, `C53_nothing_truncated`.
* **C54 Cargille formula** (partial). Models structcol/refractive_index.py:n_cargille, in `Properties_refractive_index`. Proof: one generic lemma per Cauchy formula, then a table of all oils. Theorems: `C54_cargille_two_terms_partial`, `C54_cargille_three_terms_refuted`, `C54_cargille_domain`, `C54_cargille_valid`, `C54_cargille_negative_refuted`. False of the code: the third Cauchy term is computed and thrown away, for every oil and wavelength; negative cardinal numbers are accepted. Proved: the two-term value, ValueError otherwise.
* **C55 Material lookup** (partial). Models structcol/refractive_index.py:n, in `Properties_refractive_index`, `Properties_refused`. Proof: linear interpolation as a convex combination, induction over the sorted table. Theorems: `C55_known_material`, `C55_unknown_material`, `C55_data_missing`, `C55_data_interpolates_rounded_partial`, `C55_data_exact_at_hundredths`, `C55_data_lengths`. Proved except that the interpolation is at the wavelength rounded to two decimals (see C70); linear interpolation only.
* **C56 Single-scattering reflectance bookkeeping** (partial). Models structcol/model.py:reflection, in `Properties_reflection`. Proof: the whole calculation as a function of abstract differential cross sections P, S; trapezoid sums are positive linear functionals. Theorems: `C56_zero_thickness`, `C56_monotone`, `C56_thick_limit`, `C56_none_is_limit_partial`, `C56_none_is_limit_refuted`. False of the code for absorbing particles: with a finite thickness the scattered part carries an extra factor sigma_scat/sigma_ext that thickness=None lacks (C56_none_is_limit_refuted). Everything else proved; limit proved for non-absorbing particles. Non-absorbing sample index only.
* **C57 Cross-section integration is a positive linear functional** (proved). Models structcol/model.py:_integrate_cross_section, in `Properties_reflection`. Proof: linearity, positivity and interval additivity of the trapezoid rule by induction over the grid. Theorems: `C57_additive`, `C57_homogeneous`, `C57_nonneg`, `C57_split`, `C57_trapezoid_rule`.
* **C58 Size distributions are normalised** (proved). Models structcol/model.py:size_distribution, in `Properties_reflection`. Proof: weights over the fixed 50-point grid, norm positive; Gamma function abstract and positive. Theorems: `C58_schulz`, `C58_narrow`, `C58_narrow_zero_diameter`.
* **C59 Coherent intensity is bounded by the incoherent one** (proved). Models structcol/detector_polarization_phase.py:calc_refl_phase_fields, in `Properties_polarization`. Proof: sums of complex amplitudes over an arbitrary list; Cauchy-Schwarz by induction. Theorems: `C59_coherent_bound`, `C59_bound_reached`, `C59_incoherent_is_reflectance`, `C59_index_error`.
* **C60 Co- and cross-polarised intensities add up** (proved). Models structcol/detector_polarization_phase.py:calc_refl_co_cross_fields, in `Properties_polarization`. Proof: sums of complex amplitudes over an arbitrary list; Cauchy-Schwarz by induction. Theorems: `C60_polarised_sum`.
* **C61 Bulk scattering coefficients** (proved). Models structcol/phase_func_sphere.py:calc_mu_scat_abs, in `Properties_bulk`. Proof: table-driven code: index arithmetic on sorted lists, nearest-index lookups, np.split as list partition. Theorems: `C61_coefficients`, `C61_nonnegative`, `C61_no_absorption`.
* **C62 Diameter list covers the distribution** (partial). Models structcol/phase_func_sphere.py:calc_diam_list, in `Properties_bulk`, `Properties_diam`. Proof: table-driven code: index arithmetic on sorted lists, nearest-index lookups, np.split as list partition. Theorems: `C62_diameter_list_partial`, `C62_repeats_refuted`, `C62_table_size_refuted`, `C62_equal_spacing_refuted`, `C62_levels_partial`. Proved for the default table of 600 points: enough diameters, sorted, on the table, containing mode and half-maximum points. False as stated: repeats for num_diam >= 600, IndexError for num_pdf_points <= 300, one diameter too few with equal_spacing when num_diam is a multiple of 4.
* **C63 Roughness rotation keeps unit vectors and mirrors reflections** (proved). Models structcol/montecarlo.py:coarse_roughness_enter, in `Properties_montecarlo`. Proof: rotation matrices; mirror law derived from the Rodrigues-like formula. Theorems: `C63_rough_reflection`, `C63_rough_refracted_unit`, `C63_sphere_rejected`, `C63_rough_refraction_refuted`, `C63_rough_leaves_plane`, `C63_slope_density_nonneg`. Property proved as stated; C63_rough_refraction_refuted shows additionally that the refracted direction does not obey Snell's law at the facet.
* **C64 Goniometer on a sphere never creates energy** (partial). Models structcol/detector.py:distribute_ambig_traj_weights, in `Properties_companion`, `Properties_detector`. Proof: refutation by an explicit or universally quantified counterexample, plus the positive case proved by the same lemmas as the neighbouring property. Theorems: `C64_excess_bound_partial`, `C64_sphere_goniometer_refuted`. False of the code: counterexample with weight 1 giving R+T = 5/4. Proved: the excess is at most half the Fresnel-reflected light, and none if at most half of it is sent to the front.
* **C65 A goniometer on the specular axis sees light leaving along the normal** (partial). Models structcol/detector.py:calc_refracted_direction, structcol/detector.py:calc_indices_detected, in `Properties_companion`, `Properties_detector`. Proof: refutation by an explicit or universally quantified counterexample, plus the positive case proved by the same lemmas as the neighbouring property. Theorems: `C65_near_normal_partial`, `C65_normal_ray_refuted`, `C65_index_detected_refuted`. False of the code for every position and index pair. Proved: any other ray that meets a detector on the axis is detected.
* **C66 Stuck light is re-run from where it was** (partial). Models structcol/detector.py:run_sphere_fresnel_traj, in `Properties_detector`. Proof: refutation by an explicit or universally quantified counterexample, plus the positive case proved by the same lemmas as the neighbouring property. Theorems: `C66_stuck_restart_refuted`, `C66_exit_restart_partial`. False of the code for stuck trajectories (restarted at the pole with zero direction); proved for trajectories that had left the sphere: restart at the crossing point in the mirrored direction.
* **C67 Effective media of absorbing constituents do not amplify** (proved). Models structcol/refractive_index.py:n_eff, in `Properties_refractive_index`. Proof: complex algebra; Bruggeman through its quadratic/cubic and the intermediate value bound of any root fsolve may return; imaginary parts by sign analysis of Csqrt. Theorems: `C67_maxwell_garnett_passive`, `C67_bruggeman_loss_between`.
* **C68 Built-in materials are transparent and normally dispersive in the visible** (proved). Models structcol/refractive_index.py:n, structcol/refractive_index.py:n_dict, in `Properties_refractive_index`. Proof: each Sellmeier formula bounded on [0.4, 0.7] um by monotonicity of its terms. Theorems: `C68_index_in_visible`, `C68_normal_dispersion`, `C68_vacuum_is_one`.
* **C69 Index-matching oils are ordered** (proved). Models structcol/refractive_index.py:n_cargille, in `Properties_refractive_index`. Proof: one generic lemma per Cauchy formula, then a table of all oils. Theorems: `C69_oils_ordered`, `C69_oil_dispersion`.
* **C70 User data are interpolated at the requested wavelength** (partial). Models structcol/refractive_index.py:n, in `Properties_companion`, `Properties_refractive_index`. Proof: linear interpolation as a convex combination, induction over the sorted table. Theorems: `C70_error_bound_partial`, `C70_inside_accepted_partial`, `C70_data_at_requested_wavelength_refuted`, `C70_data_in_range_accepted_refuted`. False of the code: the wavelength is rounded to 0.01 of the data's unit. Proved: the error is at most 0.005 of the unit times the steepest slope, and wavelengths 0.005 inside are accepted.
* **C71 Percus-Yevick structure factor is positive** (proved). Models structcol/structure.py:factor_py, in `Properties_structure`. Proof: positivity by writing the factor as a modulus squared or a quotient of positive terms; limits as epsilon-delta statements. Theorems: `C71_py_positive`.
* **C72 Percus-Yevick limits** (proved). Models structcol/structure.py:factor_py, in `Properties_structure`. Proof: positivity by writing the factor as a modulus squared or a quotient of positive terms; limits as epsilon-delta statements. Theorems: `C72_py_low_q`, `C72_py_high_q`.
* **C73 Polydisperse structure factor is non-negative and dimensionally consistent** (proved). Models structcol/structure.py:factor_poly, in `Properties_structure`. Proof: positivity by writing the factor as a modulus squared or a quotient of positive terms; limits as epsilon-delta statements. Theorems: `C73_poly_nonneg`, `C73_poly_scale`.
* **C74 Polydisperse structure factor treats species symmetrically** (proved). Models structcol/structure.py:factor_poly, in `Properties_structure`. Proof: positivity by writing the factor as a modulus squared or a quotient of positive terms; limits as epsilon-delta statements. Theorems: `C74_poly_order`, `C74_poly_identical_species`, `C74_poly_absent_species`, `C74_density`.
* **C75 Event probabilities are probabilities** (proved). Models structcol/event_distribution.py:calc_pdf_scat, in `Properties_events`. Proof: sums over events and trajectories regrouped (double-sum exchange), functional array updates. Theorems: `C75_pdf_scat`.
* **C76 Total internal reflection by event is consistent** (partial). Models structcol/event_distribution.py:calc_tir, in `Properties_events`. Proof: sums over events and trajectories regrouped (double-sum exchange), functional array updates. Theorems: `C76_tir_events`, `C76_tir_first_and_inside`, `C76_last_event_dropped_refuted`. Proved except for the last event, whose total reflections are never counted (refuted part).
* **C77 Path lengths are sums of steps up to the exit** (proved). Models structcol/event_distribution.py:calc_path_length, in `Properties_events`. Proof: sums over events and trajectories regrouped (double-sum exchange), functional array updates. Theorems: `C77_path_length`.
* **C78 Exit angles by event** (partial). Models structcol/event_distribution.py:calc_thetas_event_traj, in `Properties_events`. Proof: sums over events and trajectories regrouped (double-sum exchange), functional array updates. Theorems: `C78_thetas_partial`, `C78_last_event_dropped_refuted`. Proved for events before the last; the last event is dropped (refuted part).
* **C79 Asymmetry parameter and transport length** (proved). Models structcol/model.py:reflection, in `Properties_reflection`. Proof: the whole calculation as a function of abstract differential cross sections P, S; trapezoid sums are positive linear functionals. Theorems: `C79_asymmetry`.
* **C80 Unpolarised reflectance is the average of the polarised ones and a fraction** (partial). Models structcol/model.py:reflection, in `Properties_reflection`. Proof: the whole calculation as a function of abstract differential cross sections P, S; trapezoid sums are positive linear functionals. Theorems: `C80_average_of_polarisations`, `C80_normal_incidence_fraction`, `C80_polarised_fraction_refuted`. False of the code: polarised reflectances are normalised with the unpolarised cross section and can exceed 1. Average and lower bounds proved; upper bound for unpolarised light at normal incidence.
* **C81 Detector range of the single-scattering model** (partial). Models structcol/model.py:reflection, in `Properties_reflection`. Proof: the whole calculation as a function of abstract differential cross sections P, S; trapezoid sums are positive linear functionals. Theorems: `C81_detector_snell`, `C81_detector_grid`, `C81_empty_range`, `C81_azimuth`, `C81_forward_range_refuted`. False of the code for forward ranges (theta and 180 deg - theta are folded together, C81_forward_range_refuted); the rest proved.
* **C82 Number density matches the volume fraction** (partial). Models structcol/model.py:reflection, structcol/model.py:_number_density, in `Properties_reflection`. Proof: field identities with the degenerate concentrations treated separately. Theorems: `C82_density_one_species`, `C82_density_two_species`, `C82_density_absent_second`, `C82_density_absent_first_refuted`. False of the code for concentration (0, 1): the first radius is used. Proved otherwise.
* **C83 Layer volume fractions of core-shell particles** (proved). Models structcol/model.py:reflection, in `Properties_reflection`. Proof: telescoping sum over layers. Theorems: `C83_layers_sum`, `C83_layer_share`.
* **C84 Rejected arguments of the single-scattering model** (proved). Models structcol/model.py:reflection, structcol/model.py:differential_cross_section, structcol/model.py:polydisperse_form_factor, in `Properties_reflection`, `Properties_refused2`. Proof: exceptions are results: equality with Err, for all other arguments. Theorems: `C84_length_mismatch`, `C84_form_medium_alone`, `C84_form_in_matrix`, `C84_form_in_effective_medium`, `C84_unknown_form`, `C84_unknown_structure`, `C84_polydisperse_arguments`, `C84_missing_arguments`.
* **C85 Differential cross sections are finite and non-negative** (proved). Models structcol/model.py:differential_cross_section, structcol/model.py:reflection, structcol/model.py:polydisperse_form_factor, in `Properties_reflection`. Proof: composition of the form- and structure-factor lemmas: finite, non-negative at every grid angle; integrals of non-negative functions. Theorems: `C85_cross_section_nonneg`, `C85_forward_glass_nan`, `C85_reflection_succeeds`.
* **C86 Polydisperse form factor is an average, in any unit** (partial). Models structcol/model.py:polydisperse_form_factor, structcol/model.py:size_distribution, in `Properties_reflection`, `Properties_tight`. Proof: weights over the fixed 50-point grid, norm positive; Gamma function abstract and positive. Theorems: `C86_poly_is_average`, `C86_unit_free_partial`, `C86_unit_free_refuted`, `C86_poly_cross_section`. Average proved. Unit independence false of the code for pdi > 1/3 (absolute floor 1e-6 in the caller's unit); proved for pdi <= 1/3.
* **C87 Narrow size distributions are Gaussian about the mean** (partial). Models structcol/model.py:size_distribution, in `Properties_companion`, `Properties_reflection`. Proof: weights over the fixed 50-point grid, norm positive; Gamma function abstract and positive. Theorems: `C87_reciprocal_partial`, `C87_gaussian_symmetric_refuted`. False of the code: the standard deviation is proportional to each diameter, not to the mean. Proved: exactly which distribution it is.
* **C88 Sphere exits are the first positions outside the sphere** (proved). Models structcol/detector.py:find_valid_exits, structcol/detector.py:find_event_indices, structcol/detector.py:get_angles, in `Properties_detector`. Proof: first-exit search over the event list: induction, uniqueness of the least index. Theorems: `C88_stays_inside`, `C88_first_outside`, `C88_matched_direction`, `C88_total_reflection`.
* **C89 Polarised reflectances are normalised like the total** (partial). Models structcol/detector_polarization_phase.py:calc_refl_co_cross_fields, in `Properties_polarization`. Proof: closed form of the returned number for every input compared with the documented one. Theorems: `C89_normalisation_refuted`. False of the code: the polarised intensities lack the division by the number of trajectories.
* **C90 Only relative phases matter** (proved). Models structcol/detector_polarization_phase.py:calc_refl_phase_fields, in `Properties_polarization`. Proof: sums of complex amplitudes over an arbitrary list; Cauchy-Schwarz by induction. Theorems: `C90_common_phase`.
* **C91 Trajectory times** (proved). Models structcol/detector_polarization_phase.py:calc_traj_time, in `Properties_polarization`. Proof: sums of complex amplitudes over an arbitrary list; Cauchy-Schwarz by induction. Theorems: `C91_times`.
* **C92 Absorption cross section uses the documented area** (partial). Models structcol/phase_func_sphere.py:calc_mu_scat_abs, in `Properties_bulk`. Proof: closed form of the returned number for every input compared with the documented one. Theorems: `C92_absorption_area_refuted`. False of the code: the absorption cross section uses pi r^2, half of the documented value.
* **C93 The phase function of a structured sphere is a distribution** (proved). Models structcol/phase_func_sphere.py:calc_pdf, structcol/phase_func_sphere.py:calc_scat_bulk, in `Properties_bulk`. Proof: table-driven code: index arithmetic on sorted lists, nearest-index lookups, np.split as list partition. Theorems: `C93_phase_function_distribution`, `C93_only_scattered`, `C93_nan`.
* **C94 The phase function of a structured sphere can always be computed** (partial). Models structcol/phase_func_sphere.py:calc_pdf, in `Properties_bulk`, `Properties_companion`. Proof: table-driven code: index arithmetic on sorted lists, nearest-index lookups, np.split as list partition. Theorems: `C94_equator_refuted`, `C94_zero_weight_refuted`, `C94_no_error_partial`. False of the code; the theorems give the exact condition for the ValueError in both branches. Proved: no error otherwise.
* **C95 Computing the phase function leaves its inputs alone** (partial). Models structcol/phase_func_sphere.py:calc_pdf, in `Properties_bulk`. Proof: table-driven code: index arithmetic on sorted lists, nearest-index lookups, np.split as list partition. Theorems: `C95_overwrites_refuted`. False of the code: refl_indices is overwritten by flags; unchanged exactly when no reflected event is later than the first.
* **C96 Average spacing of spheres** (proved). Models structcol/phase_func_sphere.py:calc_d_avg, in `Properties_bulk`. Proof: table-driven code: index arithmetic on sorted lists, nearest-index lookups, np.split as list partition. Theorems: `C96_average_spacing`, `C96_one_per_cell`.
* **C97 The diameter list does not depend on the unit** (partial). Models structcol/phase_func_sphere.py:calc_diam_list, in `Properties_bulk`, `Properties_companion`. Proof: table-driven code: index arithmetic on sorted lists, nearest-index lookups, np.split as list partition. Theorems: `C97_units_refuted`, `C97_equal_spacing_partial`. False of the code: the table starts at the bare number 1. Proved: the list does scale for equal_spacing=True.
* **C98 Diameters are drawn with their density** (proved). Models structcol/phase_func_sphere.py:sample_diams, in `Properties_bulk`. Proof: numpy's choice modelled by cumulative sums; induction shows that a draw falls in exactly one interval, of length the item's share. Theorems: `C98_diameter_probabilities`.
* **C99 Events of the polydisperse bulk model** (partial). Models structcol/phase_func_sphere.py:sample_angles_step_poly, in `Properties_bulk`. Proof: table-driven code: index arithmetic on sorted lists, nearest-index lookups, np.split as list partition. Theorems: `C99_poly_event`, `C99_poly_angles`, `C99_unknown_parameter_refuted`. Angle and step laws proved for every matching parameter; a parameter outside the list is silently turned into a zero step (refuted part).
* **C100 Exit positions lie on the sphere** (proved). Models structcol/phase_func_sphere.py:get_exit_pos, in `Properties_bulk`. Proof: vector algebra on the exact rational/sqrt expressions. Theorems: `C100_exit_on_sphere`.
* **C101 The goniometer counts exactly the light that hits it** (proved). Models structcol/detector.py:calc_indices_detected, structcol/detector.py:calc_refracted_direction, in `Properties_detector`. Proof: vector algebra on the exact rational/sqrt expressions. Theorems: `C101_goniometer_window`, `C101_nothing_behind`.
* **C102 The goniometer reads the reflectance of an ideal diffuser** (partial). Models structcol/detector.py:normalize_refl_goniometer, in `Properties_detector`. Proof: closed form of the returned number for every input compared with the documented one. Theorems: `C102_uniform_reflector_refuted`, `C102_reads_low_refuted`. False of the code: an extra factor cos(theta); a uniform reflector reads R cos(theta), a Lambertian one 2 R cos^2(theta).
* **C103 A whole Monte Carlo run conserves energy** (proved). Models structcol/montecarlo.py:initialize, structcol/montecarlo.py:sample_step, structcol/montecarlo.py:Trajectory, structcol/detector.py:calc_refl_trans, in `Properties_simulation`. Proof: composition of initialize, sample_*, absorb, scatter, move and calc_refl_trans; invariants (unit directions, start inside, non-increasing weights) feed the energy theorem. Theorems: `C103_film_run`, `C103_sphere_run`. Film: sample index at least the medium's, no coarse roughness; spheres: plain calls, non-zero radial draws.
* **C104 Incident fields are unit and in the plane of the film** (proved). Models structcol/montecarlo.py:initialize, in `Properties_fields`. Proof: complex 3-vectors; induction over the events of a trajectory; orthogonality and norm as invariants. Theorems: `C104_initial_fields`.
* **C105 Fields stay perpendicular to the direction of propagation** (proved). Models structcol/montecarlo.py:Trajectory.calc_fields, in `Properties_fields`. Proof: complex 3-vectors; induction over the events of a trajectory; orthogonality and norm as invariants. Theorems: `C105_fields_transverse`.
* **C106 Fields come out normalised** (proved). Models structcol/montecarlo.py:Trajectory.calc_fields, in `Properties_fields`. Proof: complex 3-vectors; induction over the events of a trajectory; orthogonality and norm as invariants. Theorems: `C106_unit_or_zero`, `C106_unit`.
* **C107 Fields follow the amplitude scattering matrix** (partial). Models structcol/montecarlo.py:Trajectory.calc_fields, in `Properties_fields`. Proof: complex 3-vectors; induction over the events of a trajectory; orthogonality and norm as invariants. Theorems: `C107_amplitude_partial`, `C107_amplitude_refuted`. False of the code (refuted part): the y component is computed from the x component already updated. Proved where S4 vanishes.
* **C108 Propagation advances the phase by k times the path** (partial). Models structcol/montecarlo.py:Trajectory.calc_fields, in `Properties_fields`. Proof: complex 3-vectors; induction over the events of a trajectory; orthogonality and norm as invariants. Theorems: `C108_phase`, `C108_phase_refuted`. Phase proportional to the path proved, but the factor is k^2 instead of k (refuted part).
* **C109 Total internal reflection of one trajectory leaves the others alone** (partial). Models structcol/montecarlo.py:Trajectory.calc_fields, in `Properties_companion`, `Properties_fields`, `Properties_tirfield`. Proof: complex 3-vectors; induction over the events of a trajectory; orthogonality and norm as invariants. Theorems: `C109_other_rows_partial`, `C109_no_tir_refuted`, `C109_cross_talk_refuted`, `C109_own_angle`, `C109_own_angle_refuted`. False of the code: rows of all trajectories are overwritten, in the caller's arrays too, even without any total reflection. Proved: rows at which no trajectory is totally reflected are left alone. A reflected trajectory gets the mirrored angle of the scattering before (C109_own_angle); it should be its own (C109_own_angle_refuted).
* **C110 Angles are drawn from the phase function (unpolarised)** (proved). Models structcol/montecarlo.py:sample_angles, in `Properties_refused`, `Properties_scat`. Proof: numpy's choice modelled by cumulative sums; induction shows that a draw falls in exactly one interval, of length the item's share. Theorems: `C110_refused`, `C110_share_is_probability`, `C110_one_event`, `C110_array`.
* **C111 Angles are drawn from the phase function (with fields)** (proved). Models structcol/montecarlo.py:sample_angles, in `Properties_refused`, `Properties_scat`. Proof: as C110 for both stages; the joint law compared with the intended one by an iff over all tables, and a 3x2 counterexample. Theorems: `C111_refused`, `C111_law`, `C111_array`, `C111_right_law_iff`, `C111_right_law_refuted`. Law of the draws characterised for all tables; it is the intended one exactly when the column sums of p and p sin are proportional (iff proved), and refuted in general: the azimuth is drawn from marginals without the factor sin(theta).
* **C112 Number density used by the Monte Carlo model** (proved). Models structcol/montecarlo.py:calc_scat, in `Properties_scat`. Proof: field identities with the degenerate concentrations treated separately. Theorems: `C112_density`, `C112_ratio`.
* **C113 Scattering coefficient and phase function of a sample** (proved). Models structcol/montecarlo.py:calc_scat, structcol/montecarlo.py:phase_function, in `Properties_scat`. Proof: composition of the form- and structure-factor lemmas: finite, non-negative at every grid angle; integrals of non-negative functions. Theorems: `C113_coefficients`, `C113_rough_coefficient`, `C113_rough_needs_matrix`.
* **C114 Single-scattering and Monte Carlo model agree on the transport length** (proved). Models structcol/model.py:reflection, structcol/montecarlo.py:calc_scat, in `Properties_scat`. Proof: both code paths reduced to the same trapezoid sums of the same differential cross section. Theorems: `C114_transport_length`.
* **C115 Absorption coefficient** (partial). Models structcol/montecarlo.py:calc_scat, in `Properties_scat`. Proof: closed form and exp/modulus identities. Theorems: `C115_beer_lambert`, `C115_particles_count_partial`, `C115_particles_count_refuted`. Beer-Lambert form proved; documented meaning (absorption of the effective medium) proved with effective_medium_form=True and refuted otherwise.
* **C116 Arguments calc_scat rejects** (proved). Models structcol/montecarlo.py:calc_scat, in `Properties_scat`. Proof: exceptions are results: equality with Err, for all other arguments. Theorems: `C116_polydisperse_needs_pdi`, `C116_no_polydisperse_shells`, `C116_matrix_index`, `C116_missing_species_refuted`, `C116_struct_switch_ignored_refuted`. Rejections proved; refuted parts: radius2/concentration are never required, effective_medium_struct=False is ignored with effective_medium_form=True.
* **C117 Fresnel coefficients of absorbing media** (partial). Models structcol/model.py:fresnel_reflection, structcol/model.py:fresnel_transmission, in `Properties_absorbing`. Proof: squared moduli of complex quotients, reduced to real inequalities. Theorems: `C117_real_indices`, `C117_exit_fractions`, `C117_entrance_fractions_partial`, `C117_parallel_above_one_refuted`, `C117_normal_incidence_refuted`. Agreement with the real case and fractions proved; refuted: for a denser medium the parallel reflectance exceeds 1 exactly when Im n > Re n, and at normal incidence the two polarisations differ for every absorbing medium (the square root of a modulus replaces the complex root).
* **C118 Reflectance of absorbing samples** (partial). Models structcol/model.py:reflection, in `Properties_absorbing`. Proof: closed form of the calculation for an abstract non-negative integrator, then real analysis of exp. Theorems: `C118_thickness_law`, `C118_monotone`, `C118_transport_length`, `C118_fraction_refuted`, `C118_surfaces`. Thickness law, monotonicity, bound by the specular reflectance and transport length proved for any non-negative integrator (pymie's is an argument); being a fraction is refuted for Im n > Re n.
* **C119 From sample to reflectance: energy is conserved** (proved). Models structcol/montecarlo.py:calc_scat, structcol/montecarlo.py:sample_angles, structcol/montecarlo.py:sample_step, structcol/detector.py:calc_refl_trans, in `Properties_workflow`. Proof: composition: calc_scat gives a non-negative coefficient and, when it is positive, a phase function from which every draw picks an angle; then the run theorem C103. Theorems: `C119_film`, `C119_dark`, `C119_sphere`.
* **C120 conv_circ is circular convolution** (proved). Models structcol/phase_func_sphere.py:conv_circ, in `Properties_extra`. Proof: fft and ifft are the defining sums; orthogonality of the roots of unity from the geometric sum, exchange of finite sums by induction. Theorems: `C120_circular`, `C120_commutes`, `C120_impulse`, `C120_conserves`, `C120_bad_shapes`, `C120_one_element`.
* **C121 calc_directions returns the direction of the nearest exit** (proved). Models structcol/phase_func_sphere.py:calc_directions, in `Properties_extra`, `Properties_refused2`. Proof: argmin specification by induction over the array; for unit vectors |a-b|^2 = 2-2a.b turns nearest into smallest angle. Theorems: `C121_nearest`, `C121_smallest_angle`, `C121_no_exit_points`, `C121_missing_direction`.
* **C122 Radial distribution, field factor and phase factor** (proved). Models structcol/structure.py:radial_dist_py, structcol/structure.py:field_phase_py, structcol/structure.py:phase_factor, in `Properties_extra`. Proof: rng.choice as in C110; triangle inequality for the modulus; the spline is any function through the grid points. Theorems: `C122_field`, `C122_field_bounds`, `C122_negative_weight`, `C122_hard_core`, `C122_beyond_contact`, `C122_phase_factor_bound`, `C122_phase_factor_zero`.
* **C123 Absorption cross section of spheres and size distributions** (partial). Models structcol/model.py:absorption_cross_section, in `Properties_absorption`, `Properties_refused`. Proof: the Mie solver is an argument; bounds from the positivity and normalisation of the size distribution (C78); the counterexample solver answers 1 exactly when radius and size parameter belong together. Theorems: `C123_no_form_factor`, `C123_sphere`, `C123_multilayer_nonneg`, `C123_polydisperse_average_partial`, `C123_wrong_size_refuted`, `C123_broad_refuted`, `C123_unknown_form`, `C123_polydisperse_arguments`, `C123_no_diameter`. refuted parts: x_scat uses the mean diameter for every particle of the distribution (model.py:1019), and a distribution with pdi above 1/3 starts at diameter 0 (model.py:999-1001)
* **C124 Phase function and coefficients of a structured sphere for the bulk film** (proved). Models structcol/phase_func_sphere.py:calc_scat_bulk, structcol/phase_func_sphere.py:calc_pdf, structcol/phase_func_sphere.py:get_exit_pos, in `Properties_bulk2`. Proof: the selection of scattered trajectories reduces to a filter; the kernel sums over the three images are collected into one sum; common factors cancel in the normalisation; coefficients from C61. Theorems: `C124_bulk_from_positions`, `C124_bulk_from_directions`, `C124_phase_function_unit_free`.
* **C125 Materials with a constant index** (proved). Models structcol/refractive_index.py:n_silica_colloidal, structcol/refractive_index.py:n_keratin, structcol/refractive_index.py:n_ptbma, in `Properties_refractive_index`. Proof: the model's constants and the look-up table. Theorems: `C125_constant_indices`.
* **C126 calc_scat in absorbing media** (proved). Models structcol/montecarlo.py:calc_scat, structcol/montecarlo.py:phase_function, structcol/model.py:differential_cross_section, structcol/model.py:polydisperse_form_factor, in `Properties_scat_cplx`. Proof: the form factor in a complex medium is the real one with one more argument (distance); positivity of the size integral as in C78; sums over surfaces as in C118. Theorems: `C126_coefficients`, `C126_spheres`, `C126_rough_coefficient`.
* **C127 The two models agree on absorbing samples** (proved). Models structcol/model.py:reflection, structcol/montecarlo.py:calc_scat, in `Properties_scat_cplx`. Proof: same differential cross sections, surfaces and densities are shown equal argument by argument, then C118. Theorems: `C127_transport_length`, `C127_penetration`.
* **C128 Phase function for polarised light (fields=True)** (proved). Models structcol/montecarlo.py:calc_scat, structcol/montecarlo.py:phase_function, in `Properties_scat_cplx`. Proof: elementwise maps over a meshgrid reduce to tabulated functions; normalisation by the double sum. Theorems: `C128_coefficients`.
* **C129 Every phase function can be sampled** (proved). Models structcol/montecarlo.py:calc_scat, structcol/montecarlo.py:sample_angles, in `Properties_scat_cplx`. Proof: the weights handed to rng.choice are positive somewhere, so the cumulative sum is valid (C110, C111); a picked index has a positive weight. Theorems: `C129_angles_of_phase_function`, `C129_angles_of_fields`.
* **C130 Shares of the light returned per trajectory** (proved). Models structcol/detector.py:calc_refl_trans, structcol/detector.py:fresnel_correct_exit, structcol/detector.py:calc_outcome_weights, in `Properties_returned`. Proof: Properties_returned.v: from the return tuple of the model's calc_refl_trans back to the per-trajectory description of L_slots; C130_shares by the bounds of L_accounting, C130_split and C130_complete by field arithmetic.. Theorems: `C130_shares`, `C130_split`, `C130_complete`.
* **C131 Fine roughness is an effective surface index** (proved). Models structcol/detector.py:calc_refl_trans, in `Properties_returned`. Proof: Properties_returned.v: the first pass of the rough and of the smooth call take the same branches (first_pass_smooth); what is detected equals what passes when the hemisphere is detected (detect_all), hence equal results.. Theorems: `C131_surface`, `C131_same_result`.
* **C132 The answer does not depend on the orientation of the sample** (proved). Models structcol/detector.py:calc_refl_trans, structcol/detector.py:find_valid_exits, structcol/detector.py:get_angles, structcol/detector.py:exit_kz, in `Properties_meta`. Proof: L_meta.v: calc_refl_trans without re-runs is a function of a few numbers per trajectory (its view: exit indices, weights and angles there); L_meta2.v: turning keeps the view - for spheres because dot products and z components are kept.. Theorems: `C132_film_heights`, `C132_turned`.
* **C133 The answer does not depend on the unit of length** (proved). Models structcol/detector.py:calc_refl_trans, structcol/detector.py:exit_kz, structcol/detector.py:rotate_refract, in `Properties_meta`. Proof: L_meta2.v: scaling keeps the view of a film; of a sphere only where the surface does not refract (leaves_matched).  C133_sphere_refuted from C39_exit_kz_refuted: one and the same ray counts as reflected at radius 1 and as transmitted at another radius.. Theorems: `C133_units`, `C133_sphere_refuted`. refuted for spheres whose surface refracts: exit_kz rotates about an axis that is not normalised (detector.py:exit_kz/rotate_refract), so the classification of one ray depends on the unit of length
* **C134 Events after the exit do not count** (proved). Models structcol/detector.py:calc_refl_trans, structcol/detector.py:calc_outcome_weights, in `Properties_meta`. Proof: the first exit index is found among the events before it (continues_view), so appended events do not change the view.. Theorems: `C134_more_events`.
* **C135 The order of the trajectories does not matter** (proved). Models structcol/detector.py:calc_refl_trans, in `Properties_meta`. Proof: L_meta3.v: a closed form of the answer in sums over the trajectories; sums and existsb are invariant under permutations (L_meta4.answer_perm).. Theorems: `C135_order`.
* **C136 More absorption never means more reflectance or transmittance** (proved). Models structcol/detector.py:calc_refl_trans, structcol/detector.py:distribute_ambig_traj_weights, structcol/montecarlo.py:Trajectory.absorb, in `Properties_meta`. Proof: L_meta4.dim_mono: the closed form is monotone in the weights if everything passing the surface is detected; C136_more_absorption: Beer-Lambert weights decrease with mu.  C136_aperture_refuted: three explicit trajectories in an index-matched film.. Theorems: `C136_dimmer`, `C136_more_absorption`, `C136_aperture_refuted`. proved for detection of the whole hemisphere; refuted for limited detection angles (refl_det_frac of the light that left is applied to the stuck light)
* **C137 A larger detector never detects less** (proved). Models structcol/detector.py:calc_refl_trans, structcol/detector.py:detect_correct, in `Properties_meta`. Proof: L_meta4.aperture_mono: detected weights and detected fractions grow with the angle, everything else in the closed form stays.. Theorems: `C137_aperture`, `C137_same_failures`.
* **C138 Rough-surface facets follow the stated slope law** (proved). Models structcol/montecarlo.py:coarse_roughness_enter, structcol/montecarlo.py:P_theta_a, in `Properties_rough`. Proof: L_rough.v: slope_cdf by differentiation (Coquelicot), sample_facets_ok from choice_picks (the inverse-cdf draw of rng.choice), facet_reached: the explicit draw for each facet.. Theorems: `C138_slope_law`, `C138_facets_drawn`, `C138_facets_reached`, `C138_flat`.
* **C139 Light enters a rough film through its facet by Snell's law** (proved). Models structcol/montecarlo.py:initialize, structcol/montecarlo.py:coarse_roughness_enter, in `Properties_rough`. Proof: L_rough.v: facet_snell (rotation into the facet frame, refraction, rotation back), normal_facet, rough_launch_ok.. Theorems: `C139_snell_at_facet`, `C139_rough_launch`, `C139_normal_incidence`, `C139_sphere_rejected`.
* **C140 A run on a rough film accounts for the energy** (proved). Models structcol/montecarlo.py:initialize, structcol/detector.py:calc_refl_trans, structcol/detector.py:fresnel_correct_enter, in `Properties_rough`. Proof: L_rough.v: rough_run_ok composes the launch, trajectories_ok and the accounting of calc_refl_trans (crt_balance, first_pass_rough).  L_rough2.v: for every steep facet a concrete run that loses the light it reflects.. Theorems: `C140_rough_run`, `C140_balance`, `C140_gentle_slopes_conserve`, `C140_steep_slopes_lose_refuted`. bounds, exact balance and conservation for facets below 45 degrees proved; conservation refuted for steeper facets: light reflected downwards by a facet is dropped (detector.py, kz0_refl branch of the detection of the incident reflection)
* **C141 calc_fields fails only for missing angles** (proved). Models structcol/montecarlo.py:Trajectory.calc_fields, in `Properties_tight`. Proof: induction over the loops of calc_fields (Properties_tight.v).. Theorems: `C141_fields_errors`.
* **C142 Polydisperse structure factor: limits** (proved). Models structcol/structure.py:factor_poly, in `Properties_polylim`. Proof: L_polylim.v: orders of magnitude (O and lower bounds in powers of q) propagated through the formulas by a syntax-directed tactic; L_polypos.v: the normalisation is positive by an inequality on powers (three derivatives), the dilute limit by the same calculus in 1/phi.. Theorems: `C142_high_q`, `C142_dilute`, `C142_normalisation`.
* **C143 Polydisperse structure factor: the size distribution behind it** (proved). Models structcol/structure.py:factor_poly, in `Properties_polylim`. Proof: L_polymom.v: derivatives of the transforms in polar form, Taylor bounds for complex functions by the mean value theorem; the identities by field.. Theorems: `C143_schulz`, `C143_moments`, `C143_bounded`, `C143_consistent`.
* **C144 Index oils have their labelled index at the sodium D line** (partial). Models structcol/refractive_index.py:n_cargille, in `Properties_oils`. Proof: the coefficient tables are checked in exact integer arithmetic by the kernel (every oil of the finite tables), then lifted to the real-valued model; the returned value misses the third term.. Theorems: `C144_tables_match_labels`, `C144_returned_near_label_partial`, `C144_labels_refuted`. the tables match the labels to 5e-5 (proved for all oils); the returned value drops the third Cauchy term (refractive_index.py:421) and is within 4e-4 for AAA/AA/acrylic but 0.0003-0.0098 too low for series A, B, E (refuted)
* **C145 Polydisperse structure factor: the monodisperse limit** (proved). Models structcol/structure.py:factor_poly, structcol/structure.py:factor_py, in `Properties_polymono`. Proof: L_polymono.v: the transforms of a narrow distribution are exp(-i q d) up to w^2 (an ODE comparison), propagated through the formulas by a calculus of limits with error O(w^2); the limit determinant is the Wertheim factor of L_structure.v, and 1 - 2 Re(E W/det) = 1/|det|^2 by a polynomial identity; second-order expansion at the zeros of the form factor.. Theorems: `C145_floor`, `C145_monodisperse`, `C145_form_factor_zero`.
* **C146 A whole Monte Carlo calculation for an absorbing sample returns fractions** (proved). Models structcol/montecarlo.py:calc_scat,phase_function,sample_angles,sample_step, structcol/detector.py:calc_refl_trans, in `Properties_workflow2`. Proof: The chain of C119 with calc_scat's model for complex indices (C126, C129): the chain reduces to a run with calc_scat's coefficients (workflow_any_reduces), which C103 covers.. Theorems: `C146_film`, `C146_sphere`.
* **C147 A film of structured spheres: from one sphere's run to the film's fractions** (proved). Models structcol/phase_func_sphere.py:calc_scat_bulk,calc_mu_scat_abs,calc_pdf, structcol/montecarlo.py:sample_angles,sample_step, structcol/detector.py:calc_refl_trans, in `Properties_bulk3`. Proof: The closed form of calc_scat_bulk (C124), the signs of its coefficients (C61), drawing from a positive table (draws_1d) and C103 for the film; the sphere's shares and single exits come from C32 and trajectory_outcome (outcome_indices).. Theorems: `C147_bulk_film`, `C147_from_sphere_run`, `C147_nothing_scattered`.
* **C148 The whole calculation does not depend on the unit of length** (proved). Models structcol/montecarlo.py:calc_scat, structcol/montecarlo.py:phase_function, structcol/model.py:differential_cross_section, structcol/model.py:polydisperse_form_factor, structcol/structure.py:factor_poly, structcol/montecarlo.py:sample_step, structcol/detector.py:calc_refl_trans, in `Properties_unitrun`. Proof: `calc_scat_any` is shown to be homogeneous: every size parameter, k*distance and q*diameter is unchanged (also inside the integral over sizes, C86, and the polydisperse structure factor, C75), number density scales with 1/length^3 and cross sections with length^2 (`integrates_area`: what is assumed of pymie's integrator in an absorbing medium); then `trajectories` commutes with scaling and C133 finishes. Wide size distributions (relative width above 1/3) are excluded: C86 refutes the claim for them; spheres with an index contrast: C133 refutes it.. Theorems: `C148_calc_scat`, `C148_film`. Whole calculation for a film, scaled by l. Assumed of pymie's integrator for absorbing media: it returns an area (l^2). Relative widths of the sizes <= 1/3 (C86 refutes wider ones), scattering coefficient not exactly 0, no goniometer and no re-runs. Examples: a dyed sample in nanometres; a binary polydisperse sample with a rough surface.
* **C149 The whole calculation for a film with a rough surface is a fraction, and fine roughness that touches no trajectory changes nothing** (proved). Models structcol/tests/test_detector.py:calc_montecarlo, structcol/montecarlo.py:calc_scat,initialize,sample_step,coarse_roughness_enter, structcol/detector.py:calc_refl_trans, in `Properties_roughflow`. Proof: The chain of C146 with fine roughness in calc_scat (a second scattering coefficient, phase_any covers real and complex indices at once) and sample_step (step_table: all steps positive whatever the share), and the rough launch of C138-C140; conservation without coarse roughness from crt_exact.. Theorems: `C149_film`, `C149_smooth`, `C149_fine_keeps`, `C149_tiny_roughness`. Index of the sample not below that of the medium (in an optically thinner film the light can fail to enter through a facet). Positive coefficients and some scattering other than exactly backwards are hypotheses; where r <> 0 the exact deficit is that of C140; the Example meets them with 30 % fine roughness and slope 1/2.
* **C150 A thicker index-matched film reflects no less and transmits no more** (proved). Models structcol/detector.py: calc_refl_trans, find_valid_exits, find_event_indices, calc_outcome_weights, structcol/montecarlo.py: initialize, Trajectory.move, Trajectory.absorb, in `Properties_thick`. Proof: Exits of an index-matched film are the first crossings of a face (`crossing_exits` from C29's characterisation), so a path inside the thin film is inside the thick one (`fates`: three cases); the closed form of calc_refl_trans (`answer_closed`) is then compared term by term; the transmittance in the non-absorbing case follows from R + T = 1 (C31). The contrast counterexample is an explicit path.. Theorems: `C150_fate`, `C150_thicker`, `C150_run`, `C150_contrast`. Index-matched films, full detection, no coverslips, no re-runs, zlow = 0. With absorption the comparison holds up to 10^-9 (the code's EPS regularisation), without absorption exactly. C150_contrast shows index matching is needed for single paths; nothing is claimed about films with an index contrast.
* **C151 Pooling runs: spheres average exactly, films up to the light reflected back at the exits** (proved). Models structcol/detector.py: calc_refl_trans, distribute_ambig_traj_weights, fresnel_correct_exit, in `Properties_pool`. Proof: The closed form of calc_refl_trans (answer_closed) splits into a sum over trajectories and a share of the light reflected back that depends on the ensemble (`R_split`); the share lies between 0 and all of that light (`shared_range`), and for spheres it is half of it whatever the ensemble. Copies multiply every sum by k. The counterexample evaluates the closed form symbolically for two normal rays.. Theorems: `C151_pool`, `C151_copies`, `C151_film_not_average`. Full detection (with a partial aperture the detected fraction of the Fresnel light is itself an ensemble quantity), no goniometer, no coarse roughness, no re-runs. C151_film_not_average is the counterexample to exact averaging of films.
* **C152 Whole calculation with electric fields on a film** (proved). Models structcol/montecarlo.py:Trajectory.calc_fields, structcol/montecarlo.py:initialize, structcol/detector_polarization_phase.py:calc_refl_co_cross_fields, structcol/detector.py:calc_refl_trans, structcol/tests/test_fields.py, in `Properties_fieldflow`, `Properties_fieldrun`, `Properties_refused`. Proof: M_fieldflow.v composes the models of initialize, calc_scat, sample_angles, sample_step, Trajectory.scatter/move/absorb/calc_fields, calc_refl_trans and calc_refl_co_cross_fields. Launch fields have unit length and no z component (C104), calc_fields then succeeds (C141) with unit or zero fields (C106) transverse to the directions scatter computes (C105); the events and reflectances handed over come from the per-trajectory account of calc_refl_trans; C59/C60 give the bounds. [documented] chooses which array is handed over (documentation and tutorial disagree).. Theorems: `C152_fields_run`, `C152_workflow`, `C152_own_fields`, `C152_nan_refused`, `C152_dark`.
* **C153 Coherent reflectance averages to the incoherent reflectance** (proved). Models structcol/detector_polarization_phase.py:calc_refl_co_cross_fields, structcol/detector_polarization_phase.py:calc_refl_phase_fields, structcol/montecarlo.py:initialize, structcol/montecarlo.py:Trajectory.calc_fields, in `Properties_fieldmean`. Proof: Spec_mean.v defines the mean as an iterated Riemann integral (unique by `is_mean_unique`). The summed field is affine in each phase factor, and the mean over one phase of |a + e^{2 pi i x} z|^2 is |a|^2 + |z|^2 (explicit antiderivative); induction over trajectories removes every cross term. For whole runs the launch fields shifted by t_i are the old ones times the factor (C104's launch fields), and calc_fields commutes with a unit factor (Jones products, rotations, phases, normalisation).. Theorems: `C153_unique`, `C153_phases`, `C153_run`.
* **C154 Scattering about fixed axes gives films the right statistics** (proved). Models structcol/montecarlo.py:Trajectory.scatter, structcol/montecarlo.py:initialize, structcol/detector.py:calc_refl_trans, in `Properties_local`. Proof: Spec_local.v defines scattering in local frames (orthonormal frames turned by theta, phi; sanity theorem C154_local_frame). Both schemes give heights of the form z' = z cos(theta) + sqrt(1-z^2) sin(theta) cos(2 pi u_j), where u_j is the uniform azimuth t_j shifted by an amount depending on earlier azimuths only (`kc_canon`, `fr_canon`); `triangular` (L_periodic.v) proves that such causal shifts leave iterated means of periodic functions unchanged, in both directions. Whole runs follow because a film's result depends on heights, slopes and weights only (C132_film_heights).. Theorems: `C154_local_frame`, `C154_heights`, `C154_film_law`.
* **C155 Directions any number of scatterings apart have the mean cosine of the phase function** (partial). Models structcol/montecarlo.py:Trajectory.scatter, structcol/montecarlo.py:sample_angles, in `Properties_local`. Proof: Iterated integrals, last azimuth first: the mean over one azimuth of the next direction is affine in the current one (`wave_mean`), which gives mean directions, the recursion for the mean square of the z component and all correlations by induction. The code's correlation carries an extra factor (mean square of the z component), so the property is refuted except for the mean direction.. Theorems: `C155_mean_direction`, `C155_local_cosine`, `C155_cosine_refuted`, `C155_fixed_azimuth_refuted`. mean direction proved; mean cosine between directions refuted: scatter gives the product of cosines times the mean square z component of the earlier direction (montecarlo.py:225-234); fixed-azimuth oblique launch refuted
* **C156 Unscattered light obeys Beer-Lambert** (partial). Models structcol/montecarlo.py:sample_step, structcol/montecarlo.py:Trajectory.absorb, structcol/detector.py:calc_refl_trans, structcol/detector.py:fresnel_pass_frac, in `Properties_direct`. Proof: Runs at normal incidence in closed form (`L_direct.v`): the trajectory leaves at its first event exactly if its first step reaches the thickness; the surfaces' fractions are Fresnel's at normal incidence (Spec_direct.v, explicit formulas); the mean is an iterated Riemann integral over the first-step draws, computed from the antiderivative of a real power including its end point. Proved without absorption; refuted with absorption: the weight at the exit is attenuated over the whole last step, also the part beyond the surface, so the mean is too small by exactly the factor mu_scat/(mu_scat+mu_abs).. Theorems: `C156_exit_weight`, `C156_exit_weight_refuted`, `C156_direct_law`, `C156_beer_lambert`, `C156_beer_lambert_refuted`. Proved for non-absorbing films (C156_beer_lambert). With absorption the code attenuates over the whole last step, including its part outside the film: C156_direct_law gives the exact mean, smaller by mu_scat/(mu_scat+mu_abs), and C156_beer_lambert_refuted / C156_exit_weight_refuted show the claim false.
* **C157 Averages over independent trajectories are unbiased with variance 1/n** (proved). Models structcol/detector.py:calc_refl_trans, structcol/detector.py:distribute_ambig_traj_weights, structcol/montecarlo.py:initialize, structcol/montecarlo.py:Trajectory.absorb, in `Properties_estimate`. Proof: L_estimate.v: for spheres, and for the light a film lets through, the result of n trajectories is the average of the results of single ones (run with the draws of each; from the closed form of calc_refl_trans, C151); the mean and the variance of a sum over independent blocks of random numbers by induction over the blocks (Fubini is not needed: means are iterated integrals). For films the result differs from that average by at most the light sent back. The bias is shown in closed form at one event per trajectory: by Cauchy-Schwarz the ratio of sums is below the average of the ratios, strictly on a set of positive measure (L_estimate2.v: integrability from a Lipschitz bound).. Theorems: `C157_sphere`, `C157_film_let_through`, `C157_film_bias`, `C157_film_unbiased_refuted`. Proved for spheres (C157_sphere) and for the light let through by the surfaces of a film (C157_film_let_through). For films the reflectance itself is biased: light sent back by the surfaces is split in the ratio of the ensemble sums (detector.py:1226 ff.); C157_film_bias bounds the bias, C157_film_unbiased_refuted shows it nonzero. No re-runs, goniometer or coarse roughness.
* **C158 Light scattered once obeys the single-scattering law of a slab** (partial). Models structcol/montecarlo.py:sample_step, structcol/montecarlo.py:Trajectory.scatter, structcol/montecarlo.py:Trajectory.absorb, structcol/detector.py:calc_refl_trans, structcol/detector.py:fresnel_pass_frac, in `Properties_single`. Proof: L_single.v: the second event of a run at normal incidence in closed form (exit through the front exactly if the first step stays inside, the direction is not totally reflected and s1 + cos(theta) s2 < 0, etc.); the mean over the two steps as an iterated integral (`beyond_integral`, `before_integral`, `two_steps`); sums over trajectories with their own block of draws. C158_slab shows that the closed forms of Spec_single.v are the slab integrals. Proved without absorption; with absorption the code has the square of the albedo (the last step is attenuated over its whole length, as in C156): C158_law, C158_absorbing_refuted.. Theorems: `C158_slab`, `C158_law`, `C158_single_scattering`, `C158_absorbing_refuted`. Proved without absorption (C158_single_scattering). With absorption C158_law gives the exact mean, smaller than the claim by another factor mu_scat/(mu_scat+mu_abs) (the weight is attenuated over the whole last step, also outside the film), so the claim is refuted there (C158_absorbing_refuted). Smooth films at normal incidence, no re-runs or goniometer.
* **C159 Unscattered light at oblique incidence** (proved). Models structcol/montecarlo.py:initialize, structcol/montecarlo.py:sample_step, structcol/detector.py:calc_refl_trans, structcol/detector.py:fresnel_pass_frac, structcol/__init__.py:refraction, in `Properties_oblique`. Proof: Spec_oblique.v: Snell's angle, the textbook unpolarized reflectance and what gets through a layer at an angle (independent of the code's pass fraction, shown equal to it in L_oblique.v by the C04 textbook lemma). The entry direction's cosine is cos of Snell's angle, the refraction back at the entrance returns the incidence angle, and the first exit is read off with the exit characterisation of C24/C25. The mean over first steps is one improper-power integral per trajectory (crossing_integral), summed with sums_i_mean.. Theorems: `C159_exit_weight`, `C159_direct_law`, `C159_parallel_beam`.
* **C160 Absorption acts through the path length of each trajectory** (proved). Models structcol/montecarlo.py:Trajectory.absorb, structcol/detector.py:calc_refl_trans, structcol/detector.py:calc_outcome_weights, structcol/event_distribution.py:calc_path_length, in `Properties_pathlaw`. Proof: Two calls of calc_refl_trans on the same walks (Spec_pathlaw.walk) with coefficients 0 and a: the closed form of a call in terms of views (L_meta) is linear in the selected weights, and Trajectory.absorb multiplies column n-1 by exp(-a * sum of the first n steps), which is calc_path_length at exit index n. Lifted to film_run and sphere_run by their closed trajectory forms (L_estimate). The overshoot (refuted part) uses the slab characterisation of film exits (L_exits): the step that leaves crosses a surface at a distance d not longer than the step.. Theorems: `C160_path_law`, `C160_film`, `C160_sphere`, `C160_more_absorption_less_light`, `C160_path_inside_refuted`. proved: the exponential law in the path length reported by calc_path_length, for arbitrary trajectories and for whole film and sphere runs, and monotony in the coefficient. The natural reading with the path inside the sample is refuted by C160_path_inside_refuted (overshoot of the last step).
* **C161 The simulated light walk drifts by the transport length** (proved). Models structcol/montecarlo.py:sample_angles, structcol/montecarlo.py:sample_step, structcol/montecarlo.py:Trajectory.scatter, structcol/montecarlo.py:Trajectory.move, in `Properties_diffuse`. Proof: Spec_diffuse.v defines the angles sample_angles draws from a table with given random numbers, the average over the table, g, q and the expected correlation. L_diffuse.v: the polar angle is a step function of its random number, so the integral of any function of it is the table average (induction over the grid cells with Chasles); the azimuth integrates by wave_mean; then the moments E kz, E kz^2 and E kz_i kz_j of the directions follow by induction over the scatterings through the recursion of Trajectory.scatter, and of the positions by linearity through Trajectory.move. |g| < 1 because the poles have no solid angle. The mean step is an explicit antiderivative with x ln x -> 0. Steps are given in the walk because the mean over random numbers used here (iterated Riemann integral) excludes the unbounded logarithm.. Theorems: `C161_mean_position`, `C161_spread`, `C161_transport_length`, `C161_mean_step`.
* **C162 Light scattered once follows the phase function, and linearly in the thickness for thin films** (proved). Models structcol/montecarlo.py:sample_angles, structcol/montecarlo.py:sample_step, structcol/detector.py:calc_refl_trans, structcol/detector.py:fresnel_pass_frac, in `Properties_thin`. Proof: Spec_thin.v gives the draws with three random numbers per trajectory. L_thin.v: a mean over n + m numbers in two stages (mean_join), the per-trajectory function of C158 with the angle as a step function of its random number (polar_integral of C161), blocks of three numbers by sums_i_mean. The thin-film limit bounds the slab integrals of C158 between mu d (1 - mu d (1 + 1/|c|)) and mu d by comparing integrands, and passes the bounds through the table average.. Theorems: `C162_law`, `C162_thin_film`. With absorption the code's mean carries albedo^2 instead of albedo (C158_absorbing_refuted); C162_law states the code's value, C162_thin_film is for non-absorbing samples.
* **C163 Effective indices respect the classical bounds** (proved). Models structcol/refractive_index.py:n_eff, in `Properties_mixture`. Proof: Bruggeman's equation in t = n^2 is a decreasing function, so a sign at a trial value orders it against the root: Maxwell-Garnett's permittivity (algebraic identity, L_mixture.mg_in_bg), a changed index or a changed share of the volume (bg_real_index, bg_real_exchange) each have a known sign. Wiener's bounds are the tangent inequalities of the concave (in n^2) and convex (in 1/n^2) Bruggeman term, averaged. The dilute limit bounds the remainder of each theory by a constant times phi^2.. Theorems: `C163_bruggeman_wiener`, `C163_garnett_wiener`, `C163_hashin_shtrikman`, `C163_bruggeman_order`, `C163_bruggeman_index_monotone`, `C163_bruggeman_fraction_monotone`, `C163_dilute`.
* **C164 How many trajectories are enough** (proved). Models structcol/detector.py:calc_refl_trans, structcol/montecarlo.py:initialize, structcol/montecarlo.py:sample_step, structcol/montecarlo.py:sample_angles, structcol/detector.py:set_up_values, in `Properties_enough`. Proof: The model is the same as for C157: whole sphere and film runs on draws made from independent blocks of uniform numbers, where the result is the average of the trajectories' own results (spheres; light let through by a film) or within the light sent back of it (films). New is Hoeffding's inequality, proved from scratch in L_enough.v for iterated Riemann means: the logarithm of 1-m+m e^x is at most m x + x^2/8 (mean value theorem, twice), exp is below its chord on [0,1], and the mean of a product over independent blocks is the product of the means. 'Probability at most b' is an upper bound by the mean of a non-negative function that is at least 1 on the event (Spec_enough.v). Not covered: re-runs, and runs whose weights are NaN.. Theorems: `C164_sphere`, `C164_film_let_through`, `C164_film`, `C164_enough`.
* **C165 How many events are enough** (proved). Models structcol/montecarlo.py:Trajectory.absorb, structcol/montecarlo.py:Trajectory.move, structcol/detector.py:calc_refl_trans, structcol/detector.py:find_valid_exits, structcol/detector.py:distribute_ambig_traj_weights, in `Properties_later`. Proof: L_later.v: with the same draws the walk of N events is a prefix of the walk of N' >= N events (positions, directions and absorbed weights, by induction over the event axis), so the first exit event is the same when there is one. Each of the seven weight classes of a trajectory (let through or sent back at either surface, absorbed, still inside, direct) then moves only from 'still inside' to the others, by at most one unit per trajectory ('follows'); the sums over trajectories and the two ways calc_refl_trans shares out what is left give the bounds. C165_film needs light to be let through in the shorter run (otherwise the code divides by zero and returns NaN). Not covered: re-runs.. Theorems: `C165_film_let_through`, `C165_film`, `C165_sphere`.
* **C166 Almost all light leaves a film** (proved). Models structcol/montecarlo.py:Trajectory.scatter, structcol/montecarlo.py:Trajectory.move, structcol/montecarlo.py:sample_angles, structcol/montecarlo.py:sample_step, structcol/detector.py:calc_refl_trans, structcol/detector.py:find_valid_exits, in `Properties_leave`. Proof: L_leave.v: a trajectory still inside has, at every event, a step whose height is below the thickness or a direction that is totally reflected (no_leave, from the characterisation of film exits). The product of these indicators is bounded by a function G with an exactly computed iterated mean: per scattering, the step is integrated out (an exponential law), then the polar angle (sample_angles' table, as an integral over its uniform number), then the azimuth, whose mean depends on the old direction only through its z component (rotating the start of the azimuth, shift_periodic); what is not integrable in closed form is replaced by the continuous test function h of `reaches`, and each step multiplies the mean by at most the rate. Averages over trajectories use independent blocks of 3 numbers per scattering. Launch and first step are any given draws. Not covered: re-runs, roughness, spheres.. Theorems: `C166_inside`, `C166_let_through`, `C166_converges`, `C166_reach`.
* **C167 The whole calculation follows the phase function it computes** (proved). Models structcol/montecarlo.py:calc_scat, structcol/montecarlo.py:sample_angles, structcol/montecarlo.py:sample_step, structcol/montecarlo.py:Trajectory.scatter, structcol/detector.py:calc_refl_trans, in `Properties_sampled`. Proof: A run reads only the angles of its ntraj trajectories and nevents-1 scatterings (run_trajs_angles, by induction over the trajectories, for any two draws that agree there), and row k, column i of what sample_angles returns is the pick of the (k, i) random numbers (events_of_ok); so the workflow equals a run on `sampled_draws` (Spec_sampled.v), for all random numbers, also outside [0,1). C167_leaves composes this with C166 for the coefficients and the table that calc_scat returns; the example instantiates it for an absorbing sample of known form factors. Not covered: phase functions of theta and phi (C152 has those), fine roughness (C149).. Theorems: `C167_angles`, `C167_angles_real`, `C167_leaves`.
* **C168 Almost all light leaves an index-matched sphere** (proved). Models structcol/montecarlo.py:initialize, structcol/montecarlo.py:Trajectory.scatter, structcol/montecarlo.py:Trajectory.move, structcol/montecarlo.py:sample_angles, structcol/montecarlo.py:sample_step, structcol/detector.py:calc_refl_trans, structcol/detector.py:find_valid_exits, in `Properties_leaveball`. Proof: L_leaveball.v: a trajectory still inside whose directions are never horizontal has only steps up to the diameter (ball_inside, from C88's first position outside and the distance of two points of a ball). Horizontal directions have probability zero: a direction that is neither horizontal nor vertical is turned into one only by finitely many azimuths (flat_null), so the indicator of such a turn has mean zero after the polar angle and the azimuth are integrated out (later_flat; for the first scattering the azimuth of the launch point, first_null_int: light enters a matched sphere along the inward normal, as C20 shows). The rest of the share is the product of the indicators of short steps, integrated as in C166 (L_leave's section Stay, shared by both). C168_changes composes this with C165_sphere. Not covered: index contrast (light can then be totally reflected, or refracted into the horizontal), re-runs.. Theorems: `C168_inside`, `C168_changes`, `C168_converges`.
* **C169 The single-scattering model and the Monte Carlo model agree on thin films** (proved). Models structcol/model.py:reflection, structcol/montecarlo.py:calc_scat, structcol/montecarlo.py:phase_function, structcol/montecarlo.py:sample_angles, structcol/detector.py:calc_refl_trans, in `Properties_agree`. Proof: L_agree.v: Riemann sums over the even grids of linspace (trapezoid rule; plain sums) tend to the integral, from Coquelicot's definition of is_RInt. Properties_agree.v: the table that phase_function returns, fed to sample_angles, averages as total(U sin t h)/total(U sin t) (table_average); C162's thin-film law then gives the Monte Carlo slope as rho * sigma * (share of the backward angles) and the closed form of the model's reflectance (geometry_value, refl_pol_thick, from C80) gives the other; both limits are taken in one epsilon argument. C169_same_limit takes the cross sections as arguments of reflection_real and phase_function, C169_sample is about reflection and calc_scat themselves (same_sample as in C114, dcs_ok for the signs, rho_agree for the two formulas of the number density). Not covered: absorption, unmatched indices (both models then have Fresnel factors in different places), polarised light.. Theorems: `C169_same_limit`, `C169_sample`.
* **C170 A coverslip passes light like a stack of two surfaces** (proved). Models structcol/detector.py:fresnel_pass_frac, structcol/model.py:fresnel_reflection, structcol/model.py:fresnel_transmission, structcol/__init__.py:refraction, in `Properties_coverslip`. Proof: Spec_coverslip.v defines the reflections inside the layer as a recursion over round trips (light bouncing, passed, returned), with the textbook reflectances of Spec.v averaged over the two polarisations at each face, as the code does. pf1_at (C159) gives the value; geometric series and the invariant passed + returned + bouncing = 1 give the limits; near = front by reciprocity of the textbook formulas. At normal incidence 1/value is an increasing polynomial in g + ab/g (inverse_value), which orders all coverslips. The 1e-9 in the code's denominator is kept throughout.. Theorems: `C170_all_reflections`, `C170_both_ways`, `C170_matched_slip`, `C170_best_slip`.
* **C171 The shape of Fresnel's curves** (proved). Models structcol/model.py:fresnel_reflection, structcol/model.py:fresnel_transmission, in `Properties_curves`. Proof: With X = n1 cos t1 and Y = n2 cos t2, Y^2 = X^2 + D for D = n2^2 - n1^2, the s curve is D^2/(X + Y)^4 and the p curve is ((a - b)/(a + b))^2 for a = n1^2 Y, b = n2^2 X; X falls with the angle, b/a is monotone (its direction depends on the sign of D) and is 1 at Brewster's angle (brewster_point). Angles that are totally reflected or grazing give exactly (1, 1) in the code's branches (lost_total), and everything above them does too.. Theorems: `C171_shape`, `C171_transmission`.
* **C172 On fine angle grids the simulation samples the physical scattering law** (proved). Models structcol/montecarlo.py:calc_scat, structcol/montecarlo.py:phase_function, structcol/montecarlo.py:sample_angles, structcol/model.py:differential_cross_section, in `Properties_fineangles`. Proof: calc_scat on N angles is the phase function calculation on linspace times the number density (scat_medium_ok, rho_of_input, C64's lemmas); the trapezoid sums tend to the integral from the definition of is_RInt (L_agree.v), the normalised table averages as a ratio of two plain sums (table_average), and polar_integral gives the mean of h of the drawn angle over its random number as that average. C172_distribution takes the indicator of [s_min, t] for h.. Theorems: `C172_fine_angles`, `C172_distribution`.
* **C173 Flat layers do not change where light goes** (proved). Models structcol/__init__.py:refraction, structcol/detector.py:detect_correct, structcol/detector.py:detect_corrected_traj, in `Properties_layers`. Proof: Induction over the list of layers: Snell's law at one surface keeps n sin(t), so refraction from the middle medium equals refraction from the first one (refr_eq), and NaN at a layer is m < n|sin t| (refr_none_iff). Spec_layers.v defines the rays by Snell's law at each surface as an inductive relation; C173_rays is the equivalence with the repeated calls. Order and bending by monotonicity of the sine; the aperture by induction over the trajectories.. Theorems: `C173_layers`, `C173_rays`, `C173_keeps_order`, `C173_bends`, `C173_aperture`.
* **C174 The structure factor is the thermodynamics of hard spheres** (proved). Models structcol/structure.py:factor_py, in `Properties_pressure`. Proof: Spec_pressure.v has the equation of state; its derivative is the inverse of the limit of C72 (auto_derive, field). Dilute part: the transform is the integral of r sin(qr)/q times the direct correlation function (C48); |sin(qr)/q| <= r bounds the difference from the excluded sphere by the coefficients' distances from -1, 0, 0, which are at most 17 phi together, uniformly in q; then 1/(1-x) = 1 + x + x^2/(1-x).. Theorems: `C174_virial`, `C174_compressibility`, `C174_denser`, `C174_dilute`.
* **C175 A row of goniometer detectors counts each trajectory once** (proved). Models structcol/detector.py:calc_indices_detected, structcol/detector.py:calc_refracted_direction, in `Properties_detectors`. Proof: The edges of the window, det_dist sin(theta) +- det_len cos(theta)/2, are r sin(theta +- d) for the radius r of the hemisphere (window_edges); the point where the code puts the light does not depend on the detector's angle (point_of), so at most one window of a row contains it (apart, induction over the detectors). Mirror images: calc_refracted_direction commutes with changing the sign of x or y (flip_refracted), the comparisons swap.. Theorems: `C175_window`, `C175_detects`, `C175_once`, `C175_no_gap`, `C175_mirror`.
* **C176 A film reflects at least what its surface reflects** (proved). Models structcol/detector.py:calc_refl_trans, structcol/detector.py:fresnel_correct_enter, structcol/detector.py:distribute_ambig_traj_weights, structcol/detector.py:detect_corrected_traj, in `Properties_surface`. Proof: The closed form of a run (crt_view, answer_closed) is an average of detected + redistributed + entrance light per trajectory; the first two are non-negative (c_range), the entrance part is one minus the pass fraction at the beam's angle, which refraction() recovers from the direction inside by Snell's law (beam_di); the transmittance bound follows from C32. bare_value and C170 give the pass fraction without and with a coverslip.. Theorems: `C176_at_least`, `C176_bare`, `C176_coverslip`.
* **C177 A strongly absorbing film reflects only its surface** (proved). Models structcol/detector.py:calc_refl_trans, structcol/montecarlo.py:Trajectory.absorb, structcol/montecarlo.py:initialize, in `Properties_black`. Proof: Absorption multiplies the weight left at a trajectory's end by exp(-a * path) (absorb_at, view_absorbed), at most exp(-a l) because the path contains the first step; what a trajectory adds beyond the light turned back on entry is at most that weight (share_bound: the Fresnel and detector redistribution factors are at most 1). Some light enters and less than all of it survives, so the run has an answer (black_answers). beam_di identifies the entrance part with one minus the pass fraction. Spheres: the same share_bound; sphere_run_ok gives the answer.. Theorems: `C177_dark_film`, `C177_black_film`, `C177_dark_sphere`, `C177_bare`.
* **C178 A sphere's answer at every absorption is its path-length distribution** (proved). Models structcol/montecarlo.py:Trajectory.absorb, structcol/detector.py:calc_refl_trans, structcol/detector.py:distribute_ambig_traj_weights, in `Properties_pathsum`. Proof: Spec_pathsum.v defines lists of (amount, path length). With full detection a sphere's answer is an average over trajectories, linear in the three outcome weights (sp_split); each weight is its unabsorbed value times exp(-a * path up to that outcome) (view_absorbed, absorb_at), so each trajectory contributes three parts to each side (one, by field); ranges of the pass fractions give signs and total. Monotone, convex (tangent line of exp) and the lower bound by induction on the list.. Theorems: `C178_path_lengths`, `C178_shape`, `C178_not_too_fast`, `C178_film`.
* **C179 Unpolarised light is reflected least at normal incidence** (proved). Models structcol/model.py:fresnel_reflection, structcol/detector.py:calc_refl_trans, in `Properties_dip`. Proof: With a, b the cosines, one minus the mean reflectance minus the value at normal incidence factors as (a - b)^2 times a form that is non-negative exactly by (4 n1 n2 - n1^2 - n2^2)(n1^2 + n2^2 + 2 n1 n2) >= 0 and 2ab <= a^2 + b^2 (core, by ring); Snell's law enters only through C04, total reflection through C05. The film by C176_bare. Index 10 at atan(10): exact values.. Theorems: `C179_least_head_on`, `C179_high_index_dips`, `C179_film`.

## 5. Testing the theorems

`seeded/LOG.jsonl` records model edits the way a realistic bug would make them
(wrong sign, boundary, dropped factor, swapped argument), the theorems whose
proofs failed and the theorems tightened when nothing failed. The edits are
applied in a scratch copy, and every affected file is rebuilt with the failing
lemmas dropped one by one, so that "failed" means a theorem itself, not just the
first lemma of a file. Proof scripts are also sensitive to harmless edits; a
failure is evidence that the theorem constrains the edited definition, not a
proof that the edited statement is false.

## 6. Trusted base

* Coq 8.16.1's kernel and the standard library, Coquelicot as a library of
  definitions and lemmas (it adds no axioms).
* The axioms `Print Assumptions` lists under each theorem, all from the standard
  library: `ClassicalDedekindReals.sig_forall_dec`,
  `ClassicalDedekindReals.sig_not_dec`,
  `FunctionalExtensionality.functional_extensionality_dep`,
  `Classical_Prop.classic`. Theorems about booleans, lists and naturals only are
  closed under the global context. A listing of constants without bodies also
  shows the sealed constants of `Coq.Reals.Rdefinitions` (`RbaseSymbolsImpl`,
  `RinvImpl`) and `Coq.ssr.ssrunder.Under_rel` (a sealed module of the ssreflect
  plugin library loaded by Coquelicot): module-sealed definitions, not
  assumptions of ours.
* No axioms, parameters, functors or module types of our own; no kernel check
  switched off; no admitted proofs.
* The reading of the Python source recorded in the comments of the `M_*.v`
  files. In particular: real for floating-point arithmetic; numpy semantics of
  indexing, masking, `argmax`, `searchsorted`, `choice` and in-place updates as
  modelled there; pint's unit conversions as identities; the randomness of the
  generator as arbitrary draws.
