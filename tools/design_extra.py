H("C119", "composition: calc_scat gives a non-negative coefficient and, when it is positive, a phase function from which every draw picks an angle; then the run theorem C103")
H("C120", "fft and ifft are the defining sums; orthogonality of the roots of unity from the geometric sum, exchange of finite sums by induction")
H("C121", "argmin specification by induction over the array; for unit vectors |a-b|^2 = 2-2a.b turns nearest into smallest angle")
H("C122", "rng.choice as in C110; triangle inequality for the modulus; the spline is any function through the grid points")
H("C123", "the Mie solver is an argument; bounds from the positivity and normalisation of the size distribution (C78); the counterexample solver answers 1 exactly when radius and size parameter belong together")
H("C124", "the selection of scattered trajectories reduces to a filter; the kernel sums over the three images are collected into one sum; common factors cancel in the normalisation; coefficients from C61")
H("C125", "the model's constants and the look-up table")
H("C126", "the form factor in a complex medium is the real one with one more argument (distance); positivity of the size integral as in C78; sums over surfaces as in C118")
H("C127", "same differential cross sections, surfaces and densities are shown equal argument by argument, then C118")
H("C128", "elementwise maps over a meshgrid reduce to tabulated functions; normalisation by the double sum")
H("C129", "the weights handed to rng.choice are positive somewhere, so the cumulative sum is valid (C110, C111); a picked index has a positive weight")
H("C130", "Properties_returned.v: from the return tuple of the model's calc_refl_trans back to the per-trajectory description of L_slots; C130_shares by the bounds of L_accounting, C130_split and C130_complete by field arithmetic.")
H("C131", "Properties_returned.v: the first pass of the rough and of the smooth call take the same branches (first_pass_smooth); what is detected equals what passes when the hemisphere is detected (detect_all), hence equal results.")
H("C132", "L_meta.v: calc_refl_trans without re-runs is a function of a few numbers per trajectory (its view: exit indices, weights and angles there); L_meta2.v: turning keeps the view - for spheres because dot products and z components are kept.")
H("C133", "L_meta2.v: scaling keeps the view of a film; of a sphere only where the surface does not refract (leaves_matched).  C133_sphere_refuted from C39_exit_kz_refuted: one and the same ray counts as reflected at radius 1 and as transmitted at another radius.")
H("C134", "the first exit index is found among the events before it (continues_view), so appended events do not change the view.")
H("C135", "L_meta3.v: a closed form of the answer in sums over the trajectories; sums and existsb are invariant under permutations (L_meta4.answer_perm).")
H("C136", "L_meta4.dim_mono: the closed form is monotone in the weights if everything passing the surface is detected; C136_more_absorption: Beer-Lambert weights decrease with mu.  C136_aperture_refuted: three explicit trajectories in an index-matched film.")
H("C137", "L_meta4.aperture_mono: detected weights and detected fractions grow with the angle, everything else in the closed form stays.")
H("C138", "L_rough.v: slope_cdf by differentiation (Coquelicot), sample_facets_ok from choice_picks (the inverse-cdf draw of rng.choice), facet_reached: the explicit draw for each facet.")
H("C139", "L_rough.v: facet_snell (rotation into the facet frame, refraction, rotation back), normal_facet, rough_launch_ok.")
H("C140", "L_rough.v: rough_run_ok composes the launch, trajectories_ok and the accounting of calc_refl_trans (crt_balance, first_pass_rough).  L_rough2.v: for every steep facet a concrete run that loses the light it reflects.")
H("C141", "induction over the loops of calc_fields (Properties_tight.v).")
H("C142", "L_polylim.v: orders of magnitude (O and lower bounds in powers of q) propagated through the formulas by a syntax-directed tactic; L_polypos.v: the normalisation is positive by an inequality on powers (three derivatives), the dilute limit by the same calculus in 1/phi.")
H("C143", "L_polymom.v: derivatives of the transforms in polar form, Taylor bounds for complex functions by the mean value theorem; the identities by field.")
H("C144", "the coefficient tables are checked in exact integer arithmetic by the kernel (every oil of the finite tables), then lifted to the real-valued model; the returned value misses the third term.")
H("C145", "L_polymono.v: the transforms of a narrow distribution are exp(-i q d) up to w^2 (an ODE comparison), propagated through the formulas by a calculus of limits with error O(w^2); the limit determinant is the Wertheim factor of L_structure.v, and 1 - 2 Re(E W/det) = 1/|det|^2 by a polynomial identity; second-order expansion at the zeros of the form factor.")
H("C146", "The chain of C119 with calc_scat's model for complex indices (C126, C129): the chain reduces to a run with calc_scat's coefficients (workflow_any_reduces), which C103 covers.")
H("C147", "The closed form of calc_scat_bulk (C124), the signs of its coefficients (C61), drawing from a positive table (draws_1d) and C103 for the film; the sphere's shares and single exits come from C32 and trajectory_outcome (outcome_indices).")
H("C148", "`calc_scat_any` is shown to be homogeneous: every size parameter, k*distance and q*diameter is unchanged (also inside the integral over sizes, C86, and the polydisperse structure factor, C75), number density scales with 1/length^3 and cross sections with length^2 (`integrates_area`: what is assumed of pymie's integrator in an absorbing medium); then `trajectories` commutes with scaling and C133 finishes. Wide size distributions (relative width above 1/3) are excluded: C86 refutes the claim for them; spheres with an index contrast: C133 refutes it.")
H("C149", "The chain of C146 with fine roughness in calc_scat (a second scattering coefficient, phase_any covers real and complex indices at once) and sample_step (step_table: all steps positive whatever the share), and the rough launch of C138-C140; conservation without coarse roughness from crt_exact.")
H("C150", "Exits of an index-matched film are the first crossings of a face (`crossing_exits` from C29's characterisation), so a path inside the thin film is inside the thick one (`fates`: three cases); the closed form of calc_refl_trans (`answer_closed`) is then compared term by term; the transmittance in the non-absorbing case follows from R + T = 1 (C31). The contrast counterexample is an explicit path.")
H("C151", "The closed form of calc_refl_trans (answer_closed) splits into a sum over trajectories and a share of the light reflected back that depends on the ensemble (`R_split`); the share lies between 0 and all of that light (`shared_range`), and for spheres it is half of it whatever the ensemble. Copies multiply every sum by k. The counterexample evaluates the closed form symbolically for two normal rays.")
H("C152", "M_fieldflow.v composes the models of initialize, calc_scat, sample_angles, sample_step, Trajectory.scatter/move/absorb/calc_fields, calc_refl_trans and calc_refl_co_cross_fields. Launch fields have unit length and no z component (C104), calc_fields then succeeds (C141) with unit or zero fields (C106) transverse to the directions scatter computes (C105); the events and reflectances handed over come from the per-trajectory account of calc_refl_trans; C59/C60 give the bounds. [documented] chooses which array is handed over (documentation and tutorial disagree).")
H("C153", "Spec_mean.v defines the mean as an iterated Riemann integral (unique by `is_mean_unique`). The summed field is affine in each phase factor, and the mean over one phase of |a + e^{2 pi i x} z|^2 is |a|^2 + |z|^2 (explicit antiderivative); induction over trajectories removes every cross term. For whole runs the launch fields shifted by t_i are the old ones times the factor (C104's launch fields), and calc_fields commutes with a unit factor (Jones products, rotations, phases, normalisation).")
H("C154", "Spec_local.v defines scattering in local frames (orthonormal frames turned by theta, phi; sanity theorem C154_local_frame). Both schemes give heights of the form z' = z cos(theta) + sqrt(1-z^2) sin(theta) cos(2 pi u_j), where u_j is the uniform azimuth t_j shifted by an amount depending on earlier azimuths only (`kc_canon`, `fr_canon`); `triangular` (L_periodic.v) proves that such causal shifts leave iterated means of periodic functions unchanged, in both directions. Whole runs follow because a film's result depends on heights, slopes and weights only (C132_film_heights).")
H("C155", "Iterated integrals, last azimuth first: the mean over one azimuth of the next direction is affine in the current one (`wave_mean`), which gives mean directions, the recursion for the mean square of the z component and all correlations by induction. The code's correlation carries an extra factor (mean square of the z component), so the property is refuted except for the mean direction.")
H("C156", "Runs at normal incidence in closed form (`L_direct.v`): the trajectory leaves at its first event exactly if its first step reaches the thickness; the surfaces' fractions are Fresnel's at normal incidence (Spec_direct.v, explicit formulas); the mean is an iterated Riemann integral over the first-step draws, computed from the antiderivative of a real power including its end point. Proved without absorption; refuted with absorption: the weight at the exit is attenuated over the whole last step, also the part beyond the surface, so the mean is too small by exactly the factor mu_scat/(mu_scat+mu_abs).")
H("C157", "L_estimate.v: for spheres, and for the light a film lets through, the result of n trajectories is the average of the results of single ones (run with the draws of each; from the closed form of calc_refl_trans, C151); the mean and the variance of a sum over independent blocks of random numbers by induction over the blocks (Fubini is not needed: means are iterated integrals). For films the result differs from that average by at most the light sent back. The bias is shown in closed form at one event per trajectory: by Cauchy-Schwarz the ratio of sums is below the average of the ratios, strictly on a set of positive measure (L_estimate2.v: integrability from a Lipschitz bound).")
H("C158", "L_single.v: the second event of a run at normal incidence in closed form (exit through the front exactly if the first step stays inside, the direction is not totally reflected and s1 + cos(theta) s2 < 0, etc.); the mean over the two steps as an iterated integral (`beyond_integral`, `before_integral`, `two_steps`); sums over trajectories with their own block of draws. C158_slab shows that the closed forms of Spec_single.v are the slab integrals. Proved without absorption; with absorption the code has the square of the albedo (the last step is attenuated over its whole length, as in C156): C158_law, C158_absorbing_refuted.")
H("C159", "Spec_oblique.v: Snell's angle, the textbook unpolarized reflectance and what gets through a layer at an angle (independent of the code's pass fraction, shown equal to it in L_oblique.v by the C04 textbook lemma). The entry direction's cosine is cos of Snell's angle, the refraction back at the entrance returns the incidence angle, and the first exit is read off with the exit characterisation of C24/C25. The mean over first steps is one improper-power integral per trajectory (crossing_integral), summed with sums_i_mean.")
H("C160", "Two calls of calc_refl_trans on the same walks (Spec_pathlaw.walk) with coefficients 0 and a: the closed form of a call in terms of views (L_meta) is linear in the selected weights, and Trajectory.absorb multiplies column n-1 by exp(-a * sum of the first n steps), which is calc_path_length at exit index n. Lifted to film_run and sphere_run by their closed trajectory forms (L_estimate). The overshoot (refuted part) uses the slab characterisation of film exits (L_exits): the step that leaves crosses a surface at a distance d not longer than the step.")
H("C161", "Spec_diffuse.v defines the angles sample_angles draws from a table with given random numbers, the average over the table, g, q and the expected correlation. L_diffuse.v: the polar angle is a step function of its random number, so the integral of any function of it is the table average (induction over the grid cells with Chasles); the azimuth integrates by wave_mean; then the moments E kz, E kz^2 and E kz_i kz_j of the directions follow by induction over the scatterings through the recursion of Trajectory.scatter, and of the positions by linearity through Trajectory.move. |g| < 1 because the poles have no solid angle. The mean step is an explicit antiderivative with x ln x -> 0. Steps are given in the walk because the mean over random numbers used here (iterated Riemann integral) excludes the unbounded logarithm.")
H("C162", "Spec_thin.v gives the draws with three random numbers per trajectory. L_thin.v: a mean over n + m numbers in two stages (mean_join), the per-trajectory function of C158 with the angle as a step function of its random number (polar_integral of C161), blocks of three numbers by sums_i_mean. The thin-film limit bounds the slab integrals of C158 between mu d (1 - mu d (1 + 1/|c|)) and mu d by comparing integrands, and passes the bounds through the table average.")
H("C163", "Bruggeman's equation in t = n^2 is a decreasing function, so a sign at a trial value orders it against the root: Maxwell-Garnett's permittivity (algebraic identity, L_mixture.mg_in_bg), a changed index or a changed share of the volume (bg_real_index, bg_real_exchange) each have a known sign. Wiener's bounds are the tangent inequalities of the concave (in n^2) and convex (in 1/n^2) Bruggeman term, averaged. The dilute limit bounds the remainder of each theory by a constant times phi^2.")
H("C164", "The model is the same as for C157: whole sphere and film runs on draws made from independent blocks of uniform numbers, where the result is the average of the trajectories' own results (spheres; light let through by a film) or within the light sent back of it (films). New is Hoeffding's inequality, proved from scratch in L_enough.v for iterated Riemann means: the logarithm of 1-m+m e^x is at most m x + x^2/8 (mean value theorem, twice), exp is below its chord on [0,1], and the mean of a product over independent blocks is the product of the means. 'Probability at most b' is an upper bound by the mean of a non-negative function that is at least 1 on the event (Spec_enough.v). Not covered: re-runs, and runs whose weights are NaN.")
H("C165", "L_later.v: with the same draws the walk of N events is a prefix of the walk of N' >= N events (positions, directions and absorbed weights, by induction over the event axis), so the first exit event is the same when there is one. Each of the seven weight classes of a trajectory (let through or sent back at either surface, absorbed, still inside, direct) then moves only from 'still inside' to the others, by at most one unit per trajectory ('follows'); the sums over trajectories and the two ways calc_refl_trans shares out what is left give the bounds. C165_film needs light to be let through in the shorter run (otherwise the code divides by zero and returns NaN). Not covered: re-runs.")
H("C166", "L_leave.v: a trajectory still inside has, at every event, a step whose height is below the thickness or a direction that is totally reflected (no_leave, from the characterisation of film exits). The product of these indicators is bounded by a function G with an exactly computed iterated mean: per scattering, the step is integrated out (an exponential law), then the polar angle (sample_angles' table, as an integral over its uniform number), then the azimuth, whose mean depends on the old direction only through its z component (rotating the start of the azimuth, shift_periodic); what is not integrable in closed form is replaced by the continuous test function h of `reaches`, and each step multiplies the mean by at most the rate. Averages over trajectories use independent blocks of 3 numbers per scattering. Launch and first step are any given draws. Not covered: re-runs, roughness, spheres.")
H("C167", "A run reads only the angles of its ntraj trajectories and nevents-1 scatterings (run_trajs_angles, by induction over the trajectories, for any two draws that agree there), and row k, column i of what sample_angles returns is the pick of the (k, i) random numbers (events_of_ok); so the workflow equals a run on `sampled_draws` (Spec_sampled.v), for all random numbers, also outside [0,1). C167_leaves composes this with C166 for the coefficients and the table that calc_scat returns; the example instantiates it for an absorbing sample of known form factors. Not covered: phase functions of theta and phi (C152 has those), fine roughness (C149).")
H("C168", "L_leaveball.v: a trajectory still inside whose directions are never horizontal has only steps up to the diameter (ball_inside, from C88's first position outside and the distance of two points of a ball). Horizontal directions have probability zero: a direction that is neither horizontal nor vertical is turned into one only by finitely many azimuths (flat_null), so the indicator of such a turn has mean zero after the polar angle and the azimuth are integrated out (later_flat; for the first scattering the azimuth of the launch point, first_null_int: light enters a matched sphere along the inward normal, as C20 shows). The rest of the share is the product of the indicators of short steps, integrated as in C166 (L_leave's section Stay, shared by both). C168_changes composes this with C165_sphere. Not covered: index contrast (light can then be totally reflected, or refracted into the horizontal), re-runs.")
H("C169", "L_agree.v: Riemann sums over the even grids of linspace (trapezoid rule; plain sums) tend to the integral, from Coquelicot's definition of is_RInt. Properties_agree.v: the table that phase_function returns, fed to sample_angles, averages as total(U sin t h)/total(U sin t) (table_average); C162's thin-film law then gives the Monte Carlo slope as rho * sigma * (share of the backward angles) and the closed form of the model's reflectance (geometry_value, refl_pol_thick, from C80) gives the other; both limits are taken in one epsilon argument. C169_same_limit takes the cross sections as arguments of reflection_real and phase_function, C169_sample is about reflection and calc_scat themselves (same_sample as in C114, dcs_ok for the signs, rho_agree for the two formulas of the number density). Not covered: absorption, unmatched indices (both models then have Fresnel factors in different places), polarised light.")
H("C170", "Spec_coverslip.v defines the reflections inside the layer as a recursion over round trips (light bouncing, passed, returned), with the textbook reflectances of Spec.v averaged over the two polarisations at each face, as the code does. pf1_at (C159) gives the value; geometric series and the invariant passed + returned + bouncing = 1 give the limits; near = front by reciprocity of the textbook formulas. At normal incidence 1/value is an increasing polynomial in g + ab/g (inverse_value), which orders all coverslips. The 1e-9 in the code's denominator is kept throughout.")
H("C171", "With X = n1 cos t1 and Y = n2 cos t2, Y^2 = X^2 + D for D = n2^2 - n1^2, the s curve is D^2/(X + Y)^4 and the p curve is ((a - b)/(a + b))^2 for a = n1^2 Y, b = n2^2 X; X falls with the angle, b/a is monotone (its direction depends on the sign of D) and is 1 at Brewster's angle (brewster_point). Angles that are totally reflected or grazing give exactly (1, 1) in the code's branches (lost_total), and everything above them does too.")
H("C172", "calc_scat on N angles is the phase function calculation on linspace times the number density (scat_medium_ok, rho_of_input, C64's lemmas); the trapezoid sums tend to the integral from the definition of is_RInt (L_agree.v), the normalised table averages as a ratio of two plain sums (table_average), and polar_integral gives the mean of h of the drawn angle over its random number as that average. C172_distribution takes the indicator of [s_min, t] for h.")
H("C173", "Induction over the list of layers: Snell's law at one surface keeps n sin(t), so refraction from the middle medium equals refraction from the first one (refr_eq), and NaN at a layer is m < n|sin t| (refr_none_iff). Spec_layers.v defines the rays by Snell's law at each surface as an inductive relation; C173_rays is the equivalence with the repeated calls. Order and bending by monotonicity of the sine; the aperture by induction over the trajectories.")
H("C174", "Spec_pressure.v has the equation of state; its derivative is the inverse of the limit of C72 (auto_derive, field). Dilute part: the transform is the integral of r sin(qr)/q times the direct correlation function (C48); |sin(qr)/q| <= r bounds the difference from the excluded sphere by the coefficients' distances from -1, 0, 0, which are at most 17 phi together, uniformly in q; then 1/(1-x) = 1 + x + x^2/(1-x).")
H("C175", "The edges of the window, det_dist sin(theta) +- det_len cos(theta)/2, are r sin(theta +- d) for the radius r of the hemisphere (window_edges); the point where the code puts the light does not depend on the detector's angle (point_of), so at most one window of a row contains it (apart, induction over the detectors). Mirror images: calc_refracted_direction commutes with changing the sign of x or y (flip_refracted), the comparisons swap.")
H("C176", "The closed form of a run (crt_view, answer_closed) is an average of detected + redistributed + entrance light per trajectory; the first two are non-negative (c_range), the entrance part is one minus the pass fraction at the beam's angle, which refraction() recovers from the direction inside by Snell's law (beam_di); the transmittance bound follows from C32. bare_value and C170 give the pass fraction without and with a coverslip.")
H("C177", "Absorption multiplies the weight left at a trajectory's end by exp(-a * path) (absorb_at, view_absorbed), at most exp(-a l) because the path contains the first step; what a trajectory adds beyond the light turned back on entry is at most that weight (share_bound: the Fresnel and detector redistribution factors are at most 1). Some light enters and less than all of it survives, so the run has an answer (black_answers). beam_di identifies the entrance part with one minus the pass fraction. Spheres: the same share_bound; sphere_run_ok gives the answer.")
H("C178", "Spec_pathsum.v defines lists of (amount, path length). With full detection a sphere's answer is an average over trajectories, linear in the three outcome weights (sp_split); each weight is its unabsorbed value times exp(-a * path up to that outcome) (view_absorbed, absorb_at), so each trajectory contributes three parts to each side (one, by field); ranges of the pass fractions give signs and total. Monotone, convex (tangent line of exp) and the lower bound by induction on the list.")
H("C179", "With a, b the cosines, one minus the mean reflectance minus the value at normal incidence factors as (a - b)^2 times a form that is non-negative exactly by (4 n1 n2 - n1^2 - n2^2)(n1^2 + n2^2 + 2 n1 n2) >= 0 and 2ab <= a^2 + b^2 (core, by ring); Snell's law enters only through C04, total reflection through C05. The film by C176_bare. Index 10 at atan(10): exact values.")
