{
 "C08": {
  "note": "False of the code past the critical angle (negative angles escape the TIR mask): C08_even_refuted. Proved below the critical angle."
 },
 "C13": {
  "note": "False of the code: scatter rotates about fixed axes. Proved for directions along z; refuted in general."
 },
 "C20": {
  "note": "False of the code: without index contrast trajectories start along the inward normal, not +z; NaN on the axis."
 },
 "C63": {
  "status": "proved",
  "note": "Property proved as stated; C63_rough_refraction_refuted shows additionally that the refracted direction does not obey Snell's law at the facet."
 },
 "C22": {
  "note": "The exit flags are characterised exactly for n_medium <= n_sample."
 },
 "C25": {
  "note": "False of the code: the thickness argument is the z coordinate of the back face. Proved when it is shifted too."
 },
 "C26": {
  "note": "False of the code, for every trajectory: in a denser medium nothing leaves a film. Proved: with equal indices every first crossing is an exit."
 },
 "C32": {
  "note": "Covers films with every parameter (including re-runs) and spheres without goniometer; steps of re-runs non-negative."
 },
 "C33": {
  "note": "False of the code: a non-absorbing film no trajectory leaves gives NaN, as does any film in a denser medium. Proved: films never raise, give numbers once a trajectory leaves (coverslips not below the medium index), spheres always give numbers."
 },
 "C35": {
  "note": "False of the code for every positive max_call_depth: nested calls use the default 20. True for 0."
 },
 "C39": {
  "note": "False of the code: wrong sign for a whole family of rays. True without index contrast."
 },
 "C42": {
  "note": "False of the code: the TIR event is ignored. x, y, weights and |z| are kept."
 },
 "C43": {
  "note": "False of the code for z0 (no lower clamp). Proved for the other five coordinates."
 },
 "C64": {
  "note": "False of the code: counterexample with weight 1 giving R+T = 5/4. Proved: the excess is at most half the Fresnel-reflected light, and none if at most half of it is sent to the front."
 },
 "C65": {
  "note": "False of the code for every position and index pair. Proved: any other ray that meets a detector on the axis is detected."
 },
 "C66": {
  "note": "False of the code for stuck trajectories (restarted at the pole with zero direction); proved for trajectories that had left the sphere: restart at the crossing point in the mirrored direction."
 },
 "C54": {
  "note": "False of the code: the third Cauchy term is computed and thrown away, for every oil and wavelength; negative cardinal numbers are accepted. Proved: the two-term value, ValueError otherwise."
 },
 "C55": {
  "note": "Proved except that the interpolation is at the wavelength rounded to two decimals (see C70); linear interpolation only."
 },
 "C70": {
  "note": "False of the code: the wavelength is rounded to 0.01 of the data's unit. Proved: the error is at most 0.005 of the unit times the steepest slope, and wavelengths 0.005 inside are accepted."
 },
 "C56": {
  "note": "False of the code for absorbing particles: with a finite thickness the scattered part carries an extra factor sigma_scat/sigma_ext that thickness=None lacks (C56_none_is_limit_refuted). Everything else proved; limit proved for non-absorbing particles. Non-absorbing sample index only."
 },
 "C80": {
  "note": "False of the code: polarised reflectances are normalised with the unpolarised cross section and can exceed 1. Average and lower bounds proved; upper bound for unpolarised light at normal incidence."
 },
 "C81": {
  "note": "False of the code for forward ranges (theta and 180 deg - theta are folded together, C81_forward_range_refuted); the rest proved."
 },
 "C82": {
  "note": "False of the code for concentration (0, 1): the first radius is used. Proved otherwise."
 },
 "C86": {
  "note": "Average proved. Unit independence false of the code for pdi > 1/3 (absolute floor 1e-6 in the caller's unit); proved for pdi <= 1/3."
 },
 "C87": {
  "note": "False of the code: the standard deviation is proportional to each diameter, not to the mean. Proved: exactly which distribution it is."
 },
 "C62": {
  "note": "Proved for the default table of 600 points: enough diameters, sorted, on the table, containing mode and half-maximum points. False as stated: repeats for num_diam >= 600, IndexError for num_pdf_points <= 300, one diameter too few with equal_spacing when num_diam is a multiple of 4."
 },
 "C92": {
  "note": "False of the code: the absorption cross section uses pi r^2, half of the documented value."
 },
 "C94": {
  "note": "False of the code; the theorems give the exact condition for the ValueError in both branches. Proved: no error otherwise."
 },
 "C95": {
  "note": "False of the code: refl_indices is overwritten by flags; unchanged exactly when no reflected event is later than the first."
 },
 "C97": {
  "note": "False of the code: the table starts at the bare number 1. Proved: the list does scale for equal_spacing=True."
 },
 "C99": {
  "note": "Angle and step laws proved for every matching parameter; a parameter outside the list is silently turned into a zero step (refuted part)."
 },
 "C102": {
  "note": "False of the code: an extra factor cos(theta); a uniform reflector reads R cos(theta), a Lambertian one 2 R cos^2(theta)."
 },
 "C46": {
  "note": "pdf redistribution proved; average-event redistribution proved when both outcomes occur, raises otherwise (refuted part)."
 },
 "C47": {
  "note": "False of the code: the per-trajectory reflectances and transmission events passed in do not matter; event numbers are returned."
 },
 "C76": {
  "note": "Proved except for the last event, whose total reflections are never counted (refuted part)."
 },
 "C78": {
  "note": "Proved for events before the last; the last event is dropped (refuted part)."
 },
 "C89": {
  "note": "False of the code: the polarised intensities lack the division by the number of trajectories."
 },
 "C103": {
  "note": "Film: sample index at least the medium's, no coarse roughness; spheres: plain calls, non-zero radial draws."
 },
 "C107": {
  "note": "False of the code (refuted part): the y component is computed from the x component already updated. Proved where S4 vanishes."
 },
 "C108": {
  "note": "Phase proportional to the path proved, but the factor is k^2 instead of k (refuted part)."
 },
 "C109": {
  "note": "False of the code: rows of all trajectories are overwritten, in the caller's arrays too, even without any total reflection. Proved: rows at which no trajectory is totally reflected are left alone. A reflected trajectory gets the mirrored angle of the scattering before (C109_own_angle); it should be its own (C109_own_angle_refuted)."
 },
 "C111": {
  "note": "Law of the draws characterised for all tables; it is the intended one exactly when the column sums of p and p sin are proportional (iff proved), and refuted in general: the azimuth is drawn from marginals without the factor sin(theta).",
  "status": "proved"
 },
 "C115": {
  "note": "Beer-Lambert form proved; documented meaning (absorption of the effective medium) proved with effective_medium_form=True and refuted otherwise."
 },
 "C116": {
  "note": "Rejections proved; refuted parts: radius2/concentration are never required, effective_medium_struct=False is ignored with effective_medium_form=True.",
  "status": "proved"
 },
 "C117": {
  "note": "Agreement with the real case and fractions proved; refuted: for a denser medium the parallel reflectance exceeds 1 exactly when Im n > Re n, and at normal incidence the two polarisations differ for every absorbing medium (the square root of a modulus replaces the complex root)."
 },
 "C118": {
  "note": "Thickness law, monotonicity, bound by the specular reflectance and transport length proved for any non-negative integrator (pymie's is an argument); being a fraction is refuted for Im n > Re n."
 },
 "C123": {
  "note": "refuted parts: x_scat uses the mean diameter for every particle of the distribution (model.py:1019), and a distribution with pdi above 1/3 starts at diameter 0 (model.py:999-1001)"
 },
 "C133": {
  "note": "refuted for spheres whose surface refracts: exit_kz rotates about an axis that is not normalised (detector.py:exit_kz/rotate_refract), so the classification of one ray depends on the unit of length",
  "status": "proved"
 },
 "C136": {
  "note": "proved for detection of the whole hemisphere; refuted for limited detection angles (refl_det_frac of the light that left is applied to the stuck light)",
  "status": "proved"
 },
 "C140": {
  "note": "bounds, exact balance and conservation for facets below 45 degrees proved; conservation refuted for steeper facets: light reflected downwards by a facet is dropped (detector.py, kz0_refl branch of the detection of the incident reflection)",
  "status": "proved"
 },
 "C144": {
  "note": "the tables match the labels to 5e-5 (proved for all oils); the returned value drops the third Cauchy term (refractive_index.py:421) and is within 4e-4 for AAA/AA/acrylic but 0.0003-0.0098 too low for series A, B, E (refuted)"
 },
 "C148": {
  "note": "Whole calculation for a film, scaled by l. Assumed of pymie's integrator for absorbing media: it returns an area (l^2). Relative widths of the sizes <= 1/3 (C86 refutes wider ones), scattering coefficient not exactly 0, no goniometer and no re-runs. Examples: a dyed sample in nanometres; a binary polydisperse sample with a rough surface."
 },
 "C149": {
  "note": "Index of the sample not below that of the medium (in an optically thinner film the light can fail to enter through a facet). Positive coefficients and some scattering other than exactly backwards are hypotheses; where r <> 0 the exact deficit is that of C140; the Example meets them with 30 % fine roughness and slope 1/2."
 },
 "C150": {
  "note": "Index-matched films, full detection, no coverslips, no re-runs, zlow = 0. With absorption the comparison holds up to 10^-9 (the code's EPS regularisation), without absorption exactly. C150_contrast shows index matching is needed for single paths; nothing is claimed about films with an index contrast."
 },
 "C151": {
  "note": "Full detection (with a partial aperture the detected fraction of the Fresnel light is itself an ensemble quantity), no goniometer, no coarse roughness, no re-runs. C151_film_not_average is the counterexample to exact averaging of films."
 },
 "C155": {
  "note": "mean direction proved; mean cosine between directions refuted: scatter gives the product of cosines times the mean square z component of the earlier direction (montecarlo.py:225-234); fixed-azimuth oblique launch refuted"
 },
 "C156": {
  "note": "Proved for non-absorbing films (C156_beer_lambert). With absorption the code attenuates over the whole last step, including its part outside the film: C156_direct_law gives the exact mean, smaller by mu_scat/(mu_scat+mu_abs), and C156_beer_lambert_refuted / C156_exit_weight_refuted show the claim false."
 },
 "C157": {
  "note": "Proved for spheres (C157_sphere) and for the light let through by the surfaces of a film (C157_film_let_through). For films the reflectance itself is biased: light sent back by the surfaces is split in the ratio of the ensemble sums (detector.py:1226 ff.); C157_film_bias bounds the bias, C157_film_unbiased_refuted shows it nonzero. No re-runs, goniometer or coarse roughness.",
  "status": "proved"
 },
 "C158": {
  "note": "Proved without absorption (C158_single_scattering). With absorption C158_law gives the exact mean, smaller than the claim by another factor mu_scat/(mu_scat+mu_abs) (the weight is attenuated over the whole last step, also outside the film), so the claim is refuted there (C158_absorbing_refuted). Smooth films at normal incidence, no re-runs or goniometer."
 },
 "C160": {
  "note": "proved: the exponential law in the path length reported by calc_path_length, for arbitrary trajectories and for whole film and sphere runs, and monotony in the coefficient. The natural reading with the path inside the sample is refuted by C160_path_inside_refuted (overshoot of the last step).",
  "status": "proved"
 },
 "C162": {
  "note": "With absorption the code's mean carries albedo^2 instead of albedo (C158_absorbing_refuted); C162_law states the code's value, C162_thin_film is for non-absorbing samples."
 }
}