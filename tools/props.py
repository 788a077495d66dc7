#!/usr/bin/env python3
"""Writes /verif/properties.jsonl.  One call of P per property."""
import json, os
out = []
def P(title, statement, quantifier, why, *anchors):
    out.append(dict(id="C%02d" % (len(out)+1), title=title, statement=statement,
                    quantifier=quantifier, why_tests_cant=why, anchors=list(anchors)))

# ---- Fresnel -------------------------------------------------------------
P("Fresnel reflectances are fractions",
  "fresnel_reflection(n1, n2, angle) returns, for every angle of the array, a parallel and a perpendicular value that both lie in [0, 1].",
  "all real n1 > 0, n2 > 0, all arrays of angles between 0 and 90 degrees, including total internal reflection and grazing incidence",
  "the indices and angles are continuous; the tests sample a handful of pairs",
  "structcol/model.py:fresnel_reflection")
P("Reflection plus transmission is one",
  "fresnel_transmission(n1, n2, angle) succeeds exactly when fresnel_reflection does, and for each polarisation and each angle the two add up to 1.",
  "all real n1, n2, all arrays of angles (accepted or rejected)",
  "continuous inputs, arbitrary array lengths, and the error case has to be the same in both functions",
  "structcol/model.py:fresnel_transmission", "structcol/model.py:fresnel_reflection")
P("Angles past 90 degrees are rejected, and only those",
  "fresnel_reflection raises ValueError if and only if some angle of the array exceeds 90 degrees; otherwise it returns two arrays of the length of the input.",
  "all arrays of angles and all indices",
  "'if and only if' over arrays of every length",
  "structcol/model.py:fresnel_reflection")
P("Fresnel's equations",
  "Below the critical angle the result is the textbook Fresnel formula written with the angle of refraction t2 given by Snell's law: parallel ((n1 cos t2 - n2 cos t1)/(n1 cos t2 + n2 cos t1))^2 and perpendicular ((n1 cos t1 - n2 cos t2)/(n1 cos t1 + n2 cos t2))^2.",
  "all real n1, n2 > 0, all 0 <= t1 < 90 degrees with n1 sin t1 < n2",
  "an algebraic identity over three continuous variables",
  "structcol/model.py:fresnel_reflection")
P("Total internal reflection is total, and nothing else is",
  "With n2 < n1 both reflectances are 1 for every angle at or past arcsin(n2/n1); before the critical angle, or whenever n2 >= n1, the perpendicular reflectance is strictly below 1 for every angle below 90 degrees.",
  "all real n1, n2 > 0 and angles in [0, 90 degrees]",
  "the branch boundary is a real number that tests only straddle",
  "structcol/model.py:fresnel_reflection")
P("Fresnel reciprocity",
  "Light crossing the interface backwards along the refracted ray sees the same reflectances: reflection(n1, n2, t1) = reflection(n2, n1, t2) when n1 sin t1 = n2 sin t2.",
  "all real n1, n2 > 0, angles in [0, 90 degrees) related by Snell's law",
  "a relation between two calls over continuous inputs",
  "structcol/model.py:fresnel_reflection")
P("Special angles of the Fresnel coefficients",
  "At normal incidence both reflectances are ((n1-n2)/(n1+n2))^2; without index contrast both are 0 below 90 degrees; the parallel one vanishes at Brewster's angle arctan(n2/n1).",
  "all real n1, n2 > 0",
  "identities over continuous inputs",
  "structcol/model.py:fresnel_reflection")
P("Fresnel reflection depends on the size of the angle only",
  "Mirror-image rays reflect equally: reflection(n1, n2, -t) = reflection(n1, n2, t) for every accepted angle.",
  "all real n1, n2 > 0, angles in [-90, 90] degrees",
  "the function accepts negative angles, no test passes one",
  "structcol/model.py:fresnel_reflection")

# ---- helpers -------------------------------------------------------------
P("Snell's law in refraction()",
  "refraction(t, n1, n2) is NaN exactly when |n1/n2 sin t| > 1; otherwise it is an angle in [-90, 90] degrees whose sine times n2 equals n1 sin t, and refracting it back (n2 to n1) returns t when t is within 90 degrees.",
  "all real angles, n1 > 0, n2 > 0",
  "round trip over continuous inputs and the NaN boundary",
  "structcol/__init__.py:refraction")
P("normalize() returns unit vectors",
  "normalize(x, y, z) returns a vector of length one, parallel to the input, for each non-zero vector; a zero vector gives NaN with return_nan=True and stays zero with return_nan=False, for every mixture of zero and non-zero vectors in the array.",
  "all arrays of vectors of any length",
  "the zero handling is decided by a whole-array test, so it depends on every element",
  "structcol/__init__.py:normalize")
P("select_events picks exactly the requested event",
  "The result has one entry per trajectory: the entry of the array at (event-1, trajectory) where the event number is positive, and 0 where it is 0; no other trajectory influences it.",
  "all arrays, all event vectors with entries in 0..nevents",
  "arbitrary shapes and index vectors",
  "structcol/__init__.py:select_events")

# ---- trajectories --------------------------------------------------------
P("Scattering keeps directions unit vectors",
  "After Trajectory.scatter every direction of every trajectory at every event has the same length as the initial direction (so 1 if it started at 1), and the initial directions are unchanged.",
  "all numbers of events, all trajectories, all sampled angles",
  "rounding aside this is an induction over events with arbitrary random draws",
  "structcol/montecarlo.py:Trajectory.scatter")
P("Scattering turns the direction by the sampled angle",
  "After Trajectory.scatter the angle between consecutive directions is the sampled scattering angle theta, as the docstring ('angles are relative to the previous direction') promises.",
  "all unit directions and all sampled theta, phi",
  "holds in the tests' z-aligned cases only; needs every incoming direction",
  "structcol/montecarlo.py:Trajectory.scatter")
P("Absorption follows Beer-Lambert along the path",
  "After Trajectory.absorb the weight at each event is the initial weight times exp(-mu_abs * path walked so far); hence weights stay in [0, initial weight], never increase from event to event, and are unchanged when mu_abs = 0.",
  "all step arrays with non-negative entries, all mu_abs >= 0, all numbers of events",
  "an induction over the event axis",
  "structcol/montecarlo.py:Trajectory.absorb")
P("Moves add up",
  "After Trajectory.move the position at event n is the initial position plus the sum of step*direction over the first n events; consecutive positions are exactly step apart when directions are unit vectors, and the distance from the start never exceeds the path walked.",
  "all numbers of events, all unit directions and non-negative steps",
  "induction over events and a triangle inequality",
  "structcol/montecarlo.py:Trajectory.move")
P("Step lengths are exponentially distributed",
  "sample_step turns each uniform draw u in [0,1) into a non-negative step s such that, for every length l >= 0, s >= l exactly when u >= 1 - exp(-mu_scat*l); so a uniform draw gives the exponential law with mean free path 1/mu_scat.",
  "all draws in [0,1), all mu_scat > 0, all lengths",
  "a statement about the whole distribution, tests see one seed",
  "structcol/montecarlo.py:sample_step")
P("Fine roughness changes the first step of the requested share of trajectories, and nothing else",
  "sample_step raises ValueError unless 0 <= fine_roughness <= 1; with two coefficients the first round(ntraj*fine_roughness) trajectories, and no others, draw their first step with the Mie coefficient; no later step changes; the count never exceeds ntraj.",
  "all ntraj, nevents, fine_roughness, draws",
  "the affected set depends on rounding for every ntraj and fraction",
  "structcol/montecarlo.py:sample_step")
P("Film launches start on the surface, inside the spot, with unit directions",
  "initialize(boundary='film') starts every trajectory at z = 0 with x, y in [0, spot_size), with unit direction, weight 1, and pointing into the sample (kz >= 0); it raises ValueError if sample_diameter is given or incident angle data has the wrong length.",
  "all random draws in [0,1), all incidence ranges in [0, 90 degrees], all indices without total reflection",
  "random draws are arbitrary",
  "structcol/montecarlo.py:initialize")
P("Sphere launches start on the illuminated half of the sphere",
  "initialize(boundary='sphere') starts every trajectory on the sphere's surface, on the half facing the light, within spot_size/2 of the axis, and raises ValueError if sample_diameter is missing.",
  "all random draws in [0,1), all spot sizes up to the diameter",
  "random draws are arbitrary",
  "structcol/montecarlo.py:initialize")
P("Entering a sphere obeys Snell's law",
  "The launch directions of initialize(boundary='sphere') are the +z illumination refracted at the local surface; in particular without index contrast every trajectory starts along +z.",
  "all entry points on the sphere and all index pairs",
  "the tests only check shapes",
  "structcol/montecarlo.py:initialize")
P("Sampled phase functions are probability distributions",
  "The phase function returned by phase_function, and the probabilities sample_angles draws polar angles from, are non-negative and sum to exactly 1.",
  "all angle grids, all non-negative cross sections not identically zero",
  "arbitrary Mie output and grid sizes",
  "structcol/montecarlo.py:phase_function", "structcol/montecarlo.py:sample_angles")

# ---- detector bookkeeping ------------------------------------------------
P("Film exits are classified once",
  "For a film, a trajectory counts as leaving at an event only if that step changes the (mirrored) slab it is in and its direction is steeper than the critical angle; no event is both a reflection exit and a transmission exit; steps staying in the slab are never exits.",
  "all trajectories, thicknesses, indices",
  "arbitrary trajectories and event counts",
  "structcol/detector.py:find_valid_exits")
P("Every trajectory has exactly one outcome",
  "The event indices partition the trajectories: each is exactly one of reflected, transmitted or stuck; the index returned is the first event at which any valid exit happens, and lies in 1..nevents.",
  "all boolean exit arrays in which no event exits both ways",
  "argmax bookkeeping over every boolean matrix",
  "structcol/detector.py:find_event_indices")
P("First exit of a film trajectory is the physical one",
  "For a film with z_low = 0, a trajectory that starts inside the film and first leaves it through the front (back) face steeper than the critical angle is counted as reflected (transmitted) at that event.",
  "all trajectories starting inside, thickness > 0",
  "arbitrary trajectories",
  "structcol/detector.py:find_valid_exits", "structcol/detector.py:find_event_indices")
P("z_low only shifts the coordinate system",
  "calc_refl_trans classifies exits the same way when all z positions and z_low are shifted by the same amount, keeping the thickness.",
  "all shifts and trajectories",
  "metamorphic relation over every shift; tests use z_low=0",
  "structcol/detector.py:find_valid_exits")
P("Light can leave into a denser medium",
  "When the medium's index exceeds the sample's there is no total internal reflection, so every crossing of a face is a valid exit.",
  "all trajectories and all n_medium > n_sample",
  "tests use n_medium <= n_sample",
  "structcol/detector.py:find_valid_exits")
P("Outcome weights are a split of the incident weight",
  "calc_outcome_weights returns four non-negative weights per trajectory (reflected, transmitted, stuck, absorbed) adding up to the incident fraction; at most one of the first three is non-zero, and absorbed is 0 if the weights never dropped.",
  "all trajectories, weights in [0,1], incident fractions in [0,1]",
  "arbitrary trajectories",
  "structcol/detector.py:calc_outcome_weights")
P("Coverslip pass fraction is a fraction",
  "fresnel_pass_frac returns a value in [0, 1) for every trajectory and any three indices; it never raises for a film; and it is 0 when the ray is totally reflected at the outer face.",
  "all positive indices (with and without coverslip), all directions",
  "continuous inputs, three-layer combinations",
  "structcol/detector.py:fresnel_pass_frac")
P("Fresnel exit correction splits each weight",
  "fresnel_correct_exit returns per trajectory a passed and a re-reflected weight, both non-negative, adding up to the weight that arrived at the face, and the two outcome fractions are non-negative and add up to at most 1.",
  "all trajectories and indices",
  "arbitrary trajectories",
  "structcol/detector.py:fresnel_correct_exit")
P("Detection aperture only removes weight",
  "detect_correct keeps a trajectory's weight unchanged or sets it to 0; it keeps it exactly when the refracted exit angle is at most the detection angle; a larger detection angle keeps at least as much; 90 degrees keeps everything that can leave.",
  "all trajectories and detection angles",
  "monotonicity over all angles",
  "structcol/detector.py:detect_correct")
P("Film energy conservation without absorption",
  "For a film of non-absorbing material and the default 90-degree detection, calc_refl_trans returns reflectance + transmittance = 1 exactly.",
  "all numbers of trajectories and events, all trajectories, all thicknesses and indices for which at least some weight leaves the film",
  "a global sum over the whole pipeline for every trajectory set",
  "structcol/detector.py:calc_refl_trans", "structcol/detector.py:distribute_ambig_traj_weights")
P("Film reflectance and transmittance are fractions",
  "calc_refl_trans(boundary='film') returns 0 <= reflectance, 0 <= transmittance and reflectance + transmittance <= 1, for every absorption, coverslip, detection angle, and goniometer setting.",
  "all trajectories with weights in [0,1], all parameters for which some light is absorbed or leaves",
  "a global sum over the whole pipeline",
  "structcol/detector.py:calc_refl_trans")
P("calc_refl_trans always returns numbers",
  "For every valid set of trajectories calc_refl_trans for a film returns finite numbers, also when no trajectory leaves the film within the simulated events.",
  "all trajectory sets, including all-stuck ones",
  "the all-stuck set is not exercised by tests",
  "structcol/detector.py:calc_refl_trans", "structcol/detector.py:fresnel_correct_exit")
P("Sphere energy conservation through re-run trajectories",
  "For a non-absorbing sphere, with run_fresnel_traj on or off, reflectance + transmittance = 1 whatever the random draws of the re-run trajectories and however deep the recursion goes; with absorption the sum never exceeds 1.",
  "all trajectory sets, all random draws in the re-runs, all recursion depths",
  "an induction over recursion depth with adversarial draws",
  "structcol/detector.py:calc_refl_trans", "structcol/detector.py:run_sphere_fresnel_traj")
P("Recursion depth honours max_call_depth",
  "With run_fresnel_traj=True, calc_refl_trans starts at most max_call_depth generations of re-run trajectories, for whatever max_call_depth the user passes.",
  "all max_call_depth and all trajectory sets",
  "needs histories in which weight stays trapped for many generations",
  "structcol/detector.py:calc_refl_trans", "structcol/detector.py:run_sphere_fresnel_traj")
P("Re-runs terminate",
  "With run_fresnel_traj=True the recursion always stops, after at most 20 generations below the first call, whatever the random draws.",
  "all trajectory sets and draws",
  "termination over all histories",
  "structcol/detector.py:calc_refl_trans")
P("Sphere exit point",
  "For a step from strictly inside the sphere to outside, find_vec_sphere_intersect returns the point of the segment that lies on the sphere.",
  "all pairs of points with the first inside and the second outside, all radii",
  "continuous geometry",
  "structcol/detector.py:find_vec_sphere_intersect")
P("Rotation helper is a rotation",
  "rotate_refract with a unit axis preserves lengths and angles, fixes the axis, does not depend on the point it is given, turns by alpha, and undoes itself with -alpha.",
  "all unit axes, vectors, points and angles",
  "continuous inputs",
  "structcol/detector.py:rotate_refract")
P("Directions refracted out of a sphere obey Snell's law",
  "exit_kz gives the z-component of the direction refracted at the exit point of the sphere: for every exit, the outgoing angle to the local normal satisfies Snell's law.",
  "all exit points, directions and index pairs",
  "continuous geometry; tests check a single radial case",
  "structcol/detector.py:exit_kz")
P("Reflection inside the sphere",
  "rotate_reflect is an isometric involution: it flips the component along a unit normal and keeps the tangential part.",
  "all vectors and unit normals",
  "continuous inputs",
  "structcol/detector.py:rotate_reflect")
P("Goniometer refraction obeys Snell's law",
  "calc_refracted_direction returns a unit vector leaving the film on the reflection side whose in-plane components are n1/n2 times the incoming ones.",
  "all unit directions not parallel to the normal and below the critical angle",
  "continuous inputs",
  "structcol/detector.py:calc_refracted_direction")
P("TIR correction touches TIR trajectories only",
  "shift_traj_tir keeps z and kz of every trajectory that was not totally internally reflected, as documented.",
  "all trajectory sets and TIR indices",
  "no test inspects a non-TIR trajectory",
  "structcol/detector.py:shift_traj_tir", "structcol/detector.py:select_tir_traj")
P("Infinite coordinates are clamped",
  "inf_to_large returns coordinates of magnitude at most 1e20 times the radius, preserving sign, and leaves smaller coordinates alone.",
  "all six coordinates",
  "needs every combination of coordinate and sign",
  "structcol/detector.py:inf_to_large")
P("Haze is a fraction",
  "calc_haze returns a value in [0,1] when given the transmittance and per-trajectory values of calc_refl_trans, decreasing in the cutoff angle.",
  "all trajectory sets with positive transmittance",
  "arbitrary trajectories and cutoffs",
  "structcol/detector.py:calc_haze")

# ---- event distribution --------------------------------------------------
P("Event distribution adds up",
  "calc_refl_trans_event splits the reflectance over event numbers: entry 0 holds the entrance reflection, entry e the weight of trajectories reflected at event e, and the entries add up to the total; likewise for transmission.",
  "all trajectory sets and index vectors in 0..nevents",
  "finite but unbounded bookkeeping",
  "structcol/event_distribution.py:calc_refl_trans_event")
P("Fresnel event redistribution conserves weight and stays in bounds",
  "calc_refl_event_fresnel_pdf and calc_refl_event_fresnel_avg never index out of range and the weights they add sum to refl_frac*sum(refl_fresnel)+trans_frac*sum(trans_fresnel) over the trajectories with an exit event.",
  "all index vectors in 0..nevents and all samples",
  "index arithmetic for every event count",
  "structcol/event_distribution.py:calc_refl_event_fresnel_pdf", "structcol/event_distribution.py:calc_refl_event_fresnel_avg")
P("Averages use all the caller's arguments",
  "calc_refl_trans_event_traj's result depends on the reflectances and transmittances the caller passes.",
  "all arguments",
  "two-run property",
  "structcol/event_distribution.py:calc_refl_trans_event_traj")

# ---- structure -----------------------------------------------------------
P("Percus-Yevick structure factor is the transform of the Percus-Yevick direct correlation function",
  "factor_py(qd, phi) equals 1/(1 - c(qd)) with c the three-dimensional Fourier transform of the hard-sphere direct correlation function given by the package's own coefficients.",
  "all qd > 0 and 0 < phi < 1",
  "an integral identity over two continuous variables",
  "structcol/structure.py:factor_py", "structcol/structure.py:c0", "structcol/structure.py:c1", "structcol/structure.py:c3")
P("Paracrystal structure factor bounds",
  "factor_para is non-negative and lies between (1-r)/(1+r) and (1+r)/(1-r), r = exp(-(qd phi^(-1/3) sigma)^2/2), and tends to the ideal-gas value 1 as disorder grows.",
  "all qd > 0, phi > 0, sigma > 0",
  "continuous inputs",
  "structcol/structure.py:factor_para")
P("Interpolated structure factor stays within the data",
  "factor_data returns the tabulated value at tabulated points, lies between neighbouring tabulated values in between, and is never outside the range of the data.",
  "all tables with increasing qd, all query points",
  "all tables",
  "structcol/structure.py:factor_data")

# ---- refractive index ----------------------------------------------------
P("Effective index lies between the constituents",
  "n_eff(maxwell_garnett) for one real inclusion lies between the matrix and the particle index, equals the matrix index at volume fraction 0 and the particle index at 1, and is monotone in the volume fraction.",
  "all positive real indices, all volume fractions in [0,1]",
  "continuous inputs",
  "structcol/refractive_index.py:n_eff")
P("Bruggeman root lies between the constituents",
  "Any positive real solution of the Bruggeman equation solved by n_eff lies between the smallest and the largest constituent index.",
  "all numbers of components, all real indices and volume fractions",
  "any number of components; the solver is a black box",
  "structcol/refractive_index.py:n_eff")
P("Effective-index input checking",
  "n_eff raises ValueError when Maxwell-Garnett is asked for several inclusions, when numbers of indices and fractions differ, or when the solution has negative imaginary part; it never silently truncates lists.",
  "all list lengths",
  "all combinations of lengths",
  "structcol/refractive_index.py:n_eff")
P("Cargille formula",
  "n_cargille returns the three-term Cauchy formula of the manufacturer's table for every series and entry, and ValueError outside the table.",
  "all series, all entries, all wavelengths",
  "every table entry and wavelength",
  "structcol/refractive_index.py:n_cargille")
P("Material lookup",
  "n() returns the dispersion formula for known materials, interpolates for 'data' and raises KeyError for anything else or when data are missing.",
  "all names and wavelengths",
  "all names",
  "structcol/refractive_index.py:n")

# ---- single scattering ---------------------------------------------------
P("Single-scattering reflectance bookkeeping",
  "The scattered part of reflection()'s result is non-negative, grows with thickness, vanishes at zero thickness, and tends to the thickness=None result as thickness grows.",
  "all non-negative cross sections and thicknesses",
  "limit and monotonicity over a continuous variable",
  "structcol/model.py:reflection")
P("Cross-section integration is a positive linear functional",
  "_integrate_cross_section is additive and homogeneous in the integrand, non-negative for non-negative cross sections on [0, 180 degrees], and additive under splitting the angle range at a grid point.",
  "all grids and cross sections",
  "all grid lengths",
  "structcol/model.py:_integrate_cross_section")
P("Size distributions are normalised",
  "size_distribution returns non-negative weights whose trapezoid integral is 1, in the Schulz and the Gaussian branch, whenever the unnormalised integral is not 0.",
  "all diameter grids, means and t",
  "all grids",
  "structcol/model.py:size_distribution")

# ---- polarisation --------------------------------------------------------
P("Coherent intensity is bounded by the incoherent one",
  "calc_refl_phase_fields' coherent reflectance is non-negative and at most (number of reflected trajectories) times the incoherent one.",
  "all fields and trajectory counts",
  "Cauchy-Schwarz over any number of trajectories",
  "structcol/detector_polarization_phase.py:calc_refl_phase_fields")
P("Co- and cross-polarised intensities add up",
  "co + cross + perpendicular intensities equal the total intensity of the summed field, for every rotation angle used.",
  "all fields and trajectory directions",
  "continuous inputs",
  "structcol/detector_polarization_phase.py:calc_refl_co_cross_fields")

# ---- sphere phase function ----------------------------------------------
P("Bulk scattering coefficients",
  "calc_mu_scat_abs is linear in reflected/transmitted weight, non-negative, and gives zero absorption for a sphere whose reflectance and transmittance add up to 1 in a non-absorbing matrix.",
  "all reflectances, transmittances, radii and concentrations",
  "continuous inputs",
  "structcol/phase_func_sphere.py:calc_mu_scat_abs")
P("Diameter list covers the distribution",
  "calc_diam_list returns at least num_diam diameters, all inside the tabulated diameter range, in increasing order and without repetition.",
  "all num_diam, means and polydispersities",
  "all counts and grids",
  "structcol/phase_func_sphere.py:calc_diam_list")
P("Roughness rotation keeps unit vectors and mirrors reflections",
  "coarse_roughness_enter returns unit directions, and the Fresnel-reflected direction it reports is the mirror image of the incident one at the tilted facet; it raises ValueError for spheres.",
  "all facet slopes and incident directions",
  "random draws are arbitrary",
  "structcol/montecarlo.py:coarse_roughness_enter")

# ---- detector, continued --------------------------------------------------
P("Goniometer on a sphere never creates energy",
  "With detector=True and boundary='sphere', the light redistributed by calc_refl_trans never makes reflectance plus transmittance exceed the weight that went in.",
  "all weights, fractions and trajectory counts",
  "continuous inputs; the redistribution fractions depend on the whole trajectory set",
  "structcol/detector.py:distribute_ambig_traj_weights")
P("A goniometer on the specular axis sees light leaving along the normal",
  "A trajectory that leaves the film exactly along the surface normal, towards a detector placed there, is detected.",
  "all exit positions and index pairs",
  "a measure-zero direction no random test hits",
  "structcol/detector.py:calc_refracted_direction", "structcol/detector.py:calc_indices_detected")
P("Stuck light is re-run from where it was",
  "With run_fresnel_traj=True a trajectory that had not left the sphere is continued from a point of its path with a non-zero direction.",
  "all stuck trajectories, all draws",
  "depends on the whole history of the trajectory",
  "structcol/detector.py:run_sphere_fresnel_traj")

# ---- refractive indices, continued ----------------------------------------
P("Effective media of absorbing constituents do not amplify",
  "n_eff of constituents without gain (positive real part, non-negative imaginary part) has no gain: Maxwell-Garnett always, and a Bruggeman solution has a loss tangent between those of the constituents present.",
  "all complex indices without gain, all numbers of constituents and volume fractions",
  "continuous complex inputs; the branch of the square root matters",
  "structcol/refractive_index.py:n_eff")
P("Built-in materials are transparent and normally dispersive in the visible",
  "For every built-in material and every wavelength in the visible, n() returns a real number between 1 and 3.2 (no pole or NaN), and the index falls strictly as the wavelength grows; vacuum has index 1.",
  "all materials, all pairs of wavelengths from 380 to 800 nm",
  "tests sample two wavelengths per material",
  "structcol/refractive_index.py:n", "structcol/refractive_index.py:n_dict")
P("Index-matching oils are ordered",
  "Within a Cargille series a higher cardinal number means a higher index at every visible wavelength, and every oil has normal dispersion.",
  "all series, all pairs of oils, all wavelengths from 400 to 800 nm",
  "a mistyped table entry shows up only at that entry",
  "structcol/refractive_index.py:n_cargille")
P("User data are interpolated at the requested wavelength",
  "n('data', w, ...) is the linear interpolant of the data at w, for every w inside the data, whatever length unit the data use.",
  "all tables, units and wavelengths inside the table",
  "depends on the unit of the data and on digits tests do not use",
  "structcol/refractive_index.py:n")

# ---- structure factors, continued -----------------------------------------
P("Percus-Yevick structure factor is positive",
  "factor_py(qd, phi) is a finite positive number: the denominator 1 - c never vanishes.",
  "all qd > 0 and 0 < phi < 1",
  "two continuous parameters; a pole would be missed by any grid",
  "structcol/structure.py:factor_py")
P("Percus-Yevick limits",
  "factor_py tends to (1-phi)^4/(1+2 phi)^2 (the Percus-Yevick compressibility) as qd tends to 0, and to 1 as qd grows.",
  "all 0 < phi < 1, limits in qd",
  "limits are not observable in finitely many evaluations",
  "structcol/structure.py:factor_py")
P("Polydisperse structure factor is non-negative and dimensionally consistent",
  "factor_poly is never negative, and multiplying all diameters by a factor while dividing q by it leaves the result unchanged.",
  "all q, volume fractions, one or two species with any diameters, concentrations, polydispersities, and all factors > 0",
  "continuous inputs; a wrong power of a length shows up only under rescaling",
  "structcol/structure.py:factor_poly")
P("Polydisperse structure factor treats species symmetrically",
  "factor_poly does not depend on the order of the two species, treats two species of equal particles like one, and ignores a species with concentration 0.",
  "all species, q and volume fractions",
  "continuous inputs",
  "structcol/structure.py:factor_poly")

# ---- event distributions, continued ----------------------------------------
P("Event probabilities are probabilities",
  "calc_pdf_scat returns non-negative numbers that add up to 1 and are proportional to the event weights, one for each event 2..nevents (reflection) and 1..nevents (transmission), whenever some weight left at one of them.",
  "all event distributions and numbers of events",
  "all array lengths and weights; the slice bounds matter",
  "structcol/event_distribution.py:calc_pdf_scat")
P("Total internal reflection by event is consistent",
  "calc_tir counts a trajectory at the first event at which it is totally reflected while still inside; single-scattering counts are part of the overall counts and sit at event 2; no array exceeds the incident light; and every totally reflected trajectory is counted.",
  "all flags, indices, weights, trajectory counts and event counts",
  "depends on whole histories of flags",
  "structcol/event_distribution.py:calc_tir")
P("Path lengths are sums of steps up to the exit",
  "calc_path_length gives for each trajectory the sum of its steps before its exit event: non-negative, 0 if it never leaves, at most its whole length.",
  "all step arrays and exit indices",
  "all lengths and indices",
  "structcol/event_distribution.py:calc_path_length")
P("Exit angles by event",
  "calc_thetas_event_traj reports, for every reflected trajectory, its angle at the event at which it is reflected and 0 at the others.",
  "all reflection events 1..nevents",
  "the last event is a boundary case",
  "structcol/event_distribution.py:calc_thetas_event_traj")

# ---- single scattering, continued -------------------------------------------
P("Asymmetry parameter and transport length",
  "The asymmetry parameter reflection() returns lies strictly between -1 and 1 and is the mean cosine of the scattering angle; the transport length it returns is positive and is the reciprocal of number density times the integral of the cross section weighted with 1 - cos(theta).",
  "all non-negative differential cross sections, angle grids, densities, wavelengths and indices of non-absorbing samples",
  "continuous inputs and all grid sizes",
  "structcol/model.py:reflection")
P("Unpolarised reflectance is the average of the polarised ones and a fraction",
  "reflection()'s unpolarised reflectance is the mean of its two polarised ones; each is at least the front surface's Fresnel reflectance; all are fractions between 0 and 1.",
  "all non-negative differential cross sections, detector ranges and thicknesses of non-absorbing samples",
  "holds or fails for all cross sections at once; the failing case needs strongly polarised scattering",
  "structcol/model.py:reflection")
P("Detector range of the single-scattering model",
  "theta_min and theta_max are refracted into the sample by Snell's law (the horizon beyond total internal reflection); an empty theta or phi range leaves only the front surface's reflection; the scattered part is proportional to the phi range; a forward range detects no back-scattered light.",
  "all angles, indices and cross sections",
  "continuous inputs, including critical angles",
  "structcol/model.py:reflection")
P("Number density matches the volume fraction",
  "The number density reflection() uses, times the mean particle volume, is the volume fraction, for one species and for two species with any number concentrations, including (1, 0) and (0, 1).",
  "all radii, volume fractions and concentrations",
  "boundary concentrations take a different branch",
  "structcol/model.py:reflection", "structcol/model.py:_number_density")
P("Layer volume fractions of core-shell particles",
  "The volume fractions of the layers that reflection() hands to the effective-index calculation add up to the particle volume fraction, and each is the layer's share of the particle's volume.",
  "all numbers of layers and radii",
  "any number of layers",
  "structcol/model.py:reflection")
P("Rejected arguments of the single-scattering model",
  "Different numbers of indices and radii, unknown form or structure factors, and missing or impossible polydispersity arguments raise ValueError whatever the other arguments; an effective medium for the form factor but not for the structure factor raises NameError.",
  "all other arguments",
  "must hold for every combination of the remaining arguments",
  "structcol/model.py:reflection", "structcol/model.py:differential_cross_section", "structcol/model.py:polydisperse_form_factor")
P("Differential cross sections are finite and non-negative",
  "For every accepted form and structure factor and every non-zero angle, differential_cross_section is finite and non-negative and multiplies both polarisations by the same structure factor; hence reflection() does not raise and returns finite numbers unless nothing scatters or absorbs.",
  "all accepted arguments and angles, any non-negative Mie angular distribution",
  "continuous angles and all tables and species lists",
  "structcol/model.py:differential_cross_section", "structcol/model.py:reflection", "structcol/model.py:polydisperse_form_factor")
P("Polydisperse form factor is an average, in any unit",
  "The polydisperse form factor lies between the smallest and largest monodisperse form factors within three standard deviations of the means (times the summed concentrations), and does not depend on the unit of length.",
  "all size distributions, species lists and monodisperse form factors",
  "needs every function of diameter; the unit enters through an absolute cut-off",
  "structcol/model.py:polydisperse_form_factor", "structcol/model.py:size_distribution")
P("Narrow size distributions are Gaussian about the mean",
  "For t > 100 size_distribution is a normal distribution about the mean diameter, so diameters equally far above and below the mean get the same weight.",
  "all means, widths and grids",
  "the deviation is small for very narrow distributions and appears only at their tails",
  "structcol/model.py:size_distribution")

P("Sphere exits are the first positions outside the sphere",
  "With boundary='sphere', a trajectory that never leaves the sphere of the given diameter resting on z=0 is recorded as stuck; otherwise the event recorded (as reflected, transmitted or totally reflected) is the step to the first position outside the sphere, total reflection is recorded exactly past the critical angle at the true crossing point, and without index contrast light leaving towards -z counts as reflected and towards +z as transmitted.",
  "all trajectories, sphere sizes and refractive indices",
  "continuous positions; the crossing point is implicit in the step",
  "structcol/detector.py:find_valid_exits", "structcol/detector.py:find_event_indices", "structcol/detector.py:get_angles")

P("Polarised reflectances are normalised like the total",
  "The co-polarised, cross-polarised and perpendicular reflectances returned by calc_refl_co_cross_fields add up to the coherent reflectance returned by the same call.",
  "all numbers of trajectories, fields and detector angles",
  "any number of trajectories; the factor is the number of trajectories itself",
  "structcol/detector_polarization_phase.py:calc_refl_co_cross_fields")
P("Only relative phases matter",
  "Multiplying the fields of all trajectories by one common phase factor changes neither the coherent nor the incoherent reflectance and multiplies the total field by that factor.",
  "all fields, trajectory counts and phase factors",
  "continuous phases and any number of trajectories",
  "structcol/detector_polarization_phase.py:calc_refl_phase_fields")
P("Trajectory times",
  "calc_traj_time gives each trajectory the time light needs for its path up to the exit event in the sample plus one dwell time, and 0 to trajectories that do not exit.",
  "all steps, exit events, indices and dwell times",
  "any number of events",
  "structcol/detector_polarization_phase.py:calc_traj_time")

P("Absorption cross section uses the documented area",
  "calc_mu_scat_abs returns, for a non-absorbing matrix, the number density times the absorbed fraction times 2*pi*radius**2, as documented.",
  "all trajectories, radii and volume fractions", "continuous inputs; the expected value is the documented formula",
  "structcol/phase_func_sphere.py:calc_mu_scat_abs")
P("The phase function of a structured sphere is a distribution",
  "calc_pdf returns 200 positive values adding up to 1 that depend only on the trajectories scattered out of the sphere, or NaN exactly when no light was scattered out.",
  "all exit positions, weights and exit events, any number of trajectories and any positive kernel width", "any number of trajectories",
  "structcol/phase_func_sphere.py:calc_pdf", "structcol/phase_func_sphere.py:calc_scat_bulk")
P("The phase function of a structured sphere can always be computed",
  "calc_pdf raises no error whatever the points at which, or the weights with which, trajectories leave the sphere.",
  "all exit positions, weights and exit events", "failure needs a measure-zero exit position or weight",
  "structcol/phase_func_sphere.py:calc_pdf")
P("Computing the phase function leaves its inputs alone",
  "After calc_pdf or calc_scat_bulk the arrays of exit events passed in still hold the exit events.",
  "all exit events", "an effect on the caller's array no returned value shows",
  "structcol/phase_func_sphere.py:calc_pdf")
P("Average spacing of spheres",
  "calc_d_avg returns the diameter of the spherical cell that holds one sphere on average: volume_fraction * d_avg**3 = (2*radius)**3.",
  "all volume fractions and radii", "continuous inputs",
  "structcol/phase_func_sphere.py:calc_d_avg")
P("The diameter list does not depend on the unit",
  "calc_diam_list returns the same physical diameters whichever unit the mean diameter is given in.",
  "all means, counts, polydispersities and unit changes", "tests use one unit",
  "structcol/phase_func_sphere.py:calc_diam_list")
P("Diameters are drawn with their density",
  "sample_diams draws each diameter of the list with a probability proportional to the size density at it; the probabilities are non-negative and add up to 1.",
  "all lists of positive diameters, means and polydispersities", "continuous inputs and any list length",
  "structcol/phase_func_sphere.py:sample_diams")
P("Events of the polydisperse bulk model",
  "sample_angles_step_poly gives every event an angle drawn from the phase function of its particle type and an exponential step with the type's coefficient; a sampled parameter that belongs to no type is reported.",
  "all parameter lists, coefficients, phase functions and draws", "continuous draws; silent failure",
  "structcol/phase_func_sphere.py:sample_angles_step_poly")
P("Exit positions lie on the sphere",
  "get_exit_pos returns for every trajectory the point of the sphere in the direction of its exit normal.",
  "all normals and radii", "continuous inputs",
  "structcol/phase_func_sphere.py:get_exit_pos")

P("The goniometer counts exactly the light that hits it",
  "With a detector at an angle below 90 degrees, calc_indices_detected keeps the event of a trajectory exactly when the ray refracted at the film surface meets the detection hemisphere inside the detector window; detectors at 90 degrees and beyond count nothing.",
  "all exit positions and oblique directions below the critical angle, all detector sizes, distances and angles",
  "continuous directions and positions",
  "structcol/detector.py:calc_indices_detected", "structcol/detector.py:calc_refracted_direction")
P("The goniometer reads the reflectance of an ideal diffuser",
  "For a sample that reflects uniformly over the detection hemisphere (the documented reference), normalize_refl_goniometer turns the share of light falling on the detector back into the reflectance, at every detector angle.",
  "all reflectances, detector sizes, distances and angles",
  "continuous inputs",
  "structcol/detector.py:normalize_refl_goniometer")

P("A whole Monte Carlo run conserves energy",
  "A run made of initialize, sample_angles, sample_step, absorb, scatter, move and calc_refl_trans never raises; on a film in a medium that is not denser, any numbers it returns are fractions with sum at most one, exactly one for a plain non-absorbing call detecting the full hemisphere; on a sphere (with or without re-runs of trapped light) it always returns such numbers.",
  "all numbers of events and trajectories, all random draws (launch points, angles, scattering angles, steps, re-runs), all parameters of the detector",
  "the draws and the number of events are unbounded; tests fix one seed",
  "structcol/montecarlo.py:initialize", "structcol/montecarlo.py:sample_step", "structcol/montecarlo.py:Trajectory", "structcol/detector.py:calc_refl_trans")
P("Incident fields are unit and in the plane of the film",
  "initialize(fields=True) gives every trajectory the same unit electric field before and after entering, without z component: along x for polarised light, equal intensities along x and y otherwise, real when coherent.",
  "both values of coherent and polarized, all numbers of events, all random phases",
  "phases are drawn at random", "structcol/montecarlo.py:initialize")
P("Fields stay perpendicular to the direction of propagation",
  "After calc_fields the electric field of every trajectory at every event is perpendicular to its direction of propagation at that event.",
  "all amplitude matrices, angles, steps, numbers of events and trajectories (normal incidence)",
  "holds along unboundedly long histories", "structcol/montecarlo.py:Trajectory.calc_fields")
P("Fields come out normalised",
  "After calc_fields every field has unit length (or is zero when the amplitude matrix annihilates it).",
  "all amplitude matrices, trajectories and events",
  "unbounded histories, all complex matrices", "structcol/montecarlo.py:Trajectory.calc_fields")
P("Fields follow the amplitude scattering matrix",
  "The field after n scattering events is, up to normalisation and phase, the product of the n amplitude matrices applied to the incident field and turned like the direction of propagation.",
  "all amplitude matrices, trajectories and events",
  "products of unboundedly many matrices", "structcol/montecarlo.py:Trajectory.calc_fields")
P("Propagation advances the phase by k times the path",
  "A trajectory that has travelled a path L in the sample has its field multiplied by exp(i k L), with k = 2 pi n / wavelength, relative to one that has not.",
  "all sample indices, wavelengths, paths and numbers of events",
  "all reals and unbounded histories", "structcol/montecarlo.py:Trajectory.calc_fields")
P("Total internal reflection of one trajectory leaves the others alone",
  "Passing tir_refl_bool to calc_fields affects only the trajectories that are totally reflected and never the caller's angle arrays; the polar angle of a totally reflected trajectory is replaced by its own angle turned by the mirror.",
  "all flags, angles and numbers of trajectories",
  "depends on combinations of flags over trajectories", "structcol/montecarlo.py:Trajectory.calc_fields")

P("Angles are drawn from the phase function (unpolarised)",
  "sample_angles with a phase function of the polar angle alone returns nevents-1 rows of ntraj angle pairs; every polar angle is a point of the angle grid, drawn with probability proportional to p(theta) sin(theta) from its own random number, and every azimuth is 2 pi times its own random number, so in [0, 2 pi).",
  "all non-negative phase functions that are not zero everywhere inside the grid, all minimum angles in [0, pi], all numbers of events and trajectories, all random draws in [0,1)",
  "A test sees a few draws; the law must hold for each possible draw and every phase function.",
  "structcol/montecarlo.py:sample_angles")
P("Angles are drawn from the phase function (with fields)",
  "sample_angles with a phase function of both angles should draw each direction with probability proportional to p(theta,phi) sin(theta). It draws the azimuth by the column sums of p (without the factor sin) and then the polar angle by p sin; this is the intended law exactly when the column sums of p and of p sin are proportional.",
  "all non-negative tables of phase function values, all minimum angles, all draws in [0,1)",
  "The wrong marginal cannot be seen in samples without knowing the law, and agrees with the right one for symmetric tables.",
  "structcol/montecarlo.py:sample_angles")
P("Number density used by the Monte Carlo model",
  "In calc_scat the number density times the mean particle volume is the volume fraction, for one or two species, also if one of the two has concentration 0; only the ratio of the concentrations matters.",
  "all volume fractions, positive radii, non-negative concentrations that are not both 0",
  "Real-valued arguments; concentrations of exactly 0 go through divisions by zero.",
  "structcol/montecarlo.py:calc_scat")
P("Scattering coefficient and phase function of a sample",
  "For reasonable arguments and a non-absorbing medium calc_scat succeeds; mu_scat is number density times the total cross section (the integral of the differential cross section over the sphere) and is not negative, mu_abs is 0, and, unless nothing scatters, p is a distribution over the angles proportional to the differential cross section. With fine roughness the second coefficient is that of the same particles without structure factor in the matrix.",
  "all samples (one or two species, core-shell, polydisperse, every structure factor), all Mie angular distributions that are not negative",
  "Ranges over all real parameters and all angular distributions.",
  "structcol/montecarlo.py:calc_scat", "structcol/montecarlo.py:phase_function")
P("Single-scattering and Monte Carlo model agree on the transport length",
  "For every sample described to both, the transport length l* and asymmetry g returned by model.reflection and the scattering coefficient mu returned by montecarlo.calc_scat satisfy l* mu (1-g) = 1, if the first species is present and anything scatters.",
  "all non-absorbing samples and all non-negative Mie angular distributions",
  "Relates two independent code paths for all inputs.",
  "structcol/model.py:reflection", "structcol/montecarlo.py:calc_scat")
P("Absorption coefficient",
  "exp(-mu_abs L) with the mu_abs of calc_scat is the squared modulus of the wave amplitude after a path L in the surroundings' complex index. It is the absorption of the sample as an effective medium (as documented) when the form factor is calculated in the effective medium; otherwise it is that of the matrix alone and absorbing particles do not contribute.",
  "all complex indices, wavelengths and path lengths, all switches",
  "Real-valued law over all paths and indices.",
  "structcol/montecarlo.py:calc_scat")
P("Arguments calc_scat rejects",
  "calc_scat with polydisperse=True raises ValueError if pdi is missing or the particles have more than one layer; roughness without n_matrix never returns a result; a form factor outside the effective medium without n_matrix raises TypeError; otherwise n_matrix is not needed. Missing radius2 or concentration (documented as errors) are accepted, and effective_medium_struct=False is ignored when effective_medium_form=True.",
  "all arguments and Mie functions",
  "The rejected set is infinite; acceptance must be shown for all other arguments.",
  "structcol/montecarlo.py:calc_scat")

P("Fresnel coefficients of absorbing media",
  "With a complex refractive index on either side, fresnel_reflection returns reflectances between 0 and 1, agrees with the real calculation when the imaginary parts vanish, and at normal incidence gives both polarisations Fresnel's |(n1-n2)/(n1+n2)|^2.",
  "all complex indices with positive real and imaginary part, all angles of incidence up to 90 degrees",
  "The defect grows continuously with the absorption and vanishes for transparent media, so checks on a few weakly absorbing indices pass within tolerance.",
  "structcol/model.py:fresnel_reflection", "structcol/model.py:fresnel_transmission")
P("Reflectance of absorbing samples",
  "For a sample whose index has an imaginary part, reflection() follows Beer-Lambert: the diffuse part of each reflectance is proportional to 1-exp(-(ks+ka) L), with ks the scattering coefficient and ka = 4 pi Im(n)/wavelength; it is never below the specular reflectance, grows with the thickness, stays a fraction, and the transport length is 1/((1-g) ks).",
  "all absorbing samples, thicknesses, detector ranges and angular distributions",
  "The law ties together infinitely many thicknesses, and quadratures over arbitrary differential cross sections.",
  "structcol/model.py:reflection")

P("From sample to reflectance: energy is conserved",
  "For any non-absorbing sample accepted by calc_scat, the documented sequence calc_scat, sample_angles, sample_step, the trajectory updates and calc_refl_trans never raises, whatever the random draws; reflectance and transmittance are fractions and, with the full hemisphere detected, add up to one (films and spheres).",
  "all samples (sizes, indices, concentrations, structure and form factors), all numbers of events and trajectories, all sequences of random draws",
  "The statement composes six calls over arbitrary samples and all random draws; a test fixes one sample and one seed.",
  "structcol/montecarlo.py:calc_scat", "structcol/montecarlo.py:sample_angles", "structcol/montecarlo.py:sample_step", "structcol/detector.py:calc_refl_trans")

P("conv_circ is circular convolution",
  "For two arrays of the same length n, conv_circ returns at place i the sum of all products signal[j]*ker[k] with j+k = i modulo n; it commutes, convolution with an impulse is the identity, and the entries of the result add up to sum(signal)*sum(ker), so a kernel of sum one conserves the total. Empty arrays and arrays of different lengths above one raise ValueError.",
  "all real arrays of any length",
  "The identity between a product of discrete Fourier transforms and a circular sum must hold for every length, not only for powers of two or small n.",
  "structcol/phase_func_sphere.py:conv_circ")
P("calc_directions returns the direction of the nearest exit",
  "calc_directions gives every sampled pair of angles the direction of the recorded exit event whose exit point is nearest to the sampled point of the sphere (the first on ties), i.e. for exit points on the sphere the one at the smallest angle; without exit events it raises ValueError.",
  "all sampled angles, exit points, directions and radii",
  "Nearest-neighbour choice has to be right for every arrangement of exit points including ties.",
  "structcol/phase_func_sphere.py:calc_directions")
P("Radial distribution, field factor and phase factor",
  "radial_dist_py is zero at every grid distance below one diameter; field_phase_py is the average of exp(i qd r) over distances drawn with weights g: modulus at most one, exactly one at qd = 0, complex conjugate for -qd, ValueError when a weight is negative; phase_factor is largest in modulus at qd = 0, where it is pi/8 times the coordination integral.",
  "all volume fractions, distances, weights, draws, qd and interpolating splines",
  "Ranges over all random draws and all g; a test looks at one seed.",
  "structcol/structure.py:radial_dist_py", "structcol/structure.py:field_phase_py", "structcol/structure.py:phase_factor")
P("Absorption cross section of spheres and size distributions",
  "absorption_cross_section is zero without a form factor, Mie's value for the sphere's own radius and size parameter for a homogeneous sphere, never negative for multilayer particles, and for a polydisperse sample an average of the values of particles of the sizes in the distribution; contradictory arguments raise ValueError.",
  "all Mie solvers, sizes, distributions, indices and wavelengths",
  "The average has to be over consistent particles for every distribution; the code mixes the mean diameter with the others and reaches diameter zero for broad distributions.",
  "structcol/model.py:absorption_cross_section")

P("Phase function and coefficients of a structured sphere for the bulk film",
  "calc_scat_bulk returns the normalised Gaussian kernel estimate (with mirror images at both ends) of the weighted exit cosines of exactly the trajectories scattered out of the sphere, taken from the exit normals or, with kz, from the direction at the exit event; the scattering and absorption coefficients for the radius d/2; the phase function does not depend on diameter, volume fraction, matrix or wavelength.",
  "all numbers of trajectories, weights, exit events, normals, directions, diameters, volume fractions, bandwidth rules",
  "The estimate has to match for every trajectory set and every bandwidth rule; a test compares one random run with a stored number.",
  "structcol/phase_func_sphere.py:calc_scat_bulk", "structcol/phase_func_sphere.py:calc_pdf", "structcol/phase_func_sphere.py:get_exit_pos")
P("Materials with a constant index",
  "The indices of colloidal silica, PtBMA and keratin are the same constants at every wavelength and are not reachable by name through n().",
  "all wavelengths",
  "Constancy is a statement about every wavelength.",
  "structcol/refractive_index.py:n_silica_colloidal", "structcol/refractive_index.py:n_keratin", "structcol/refractive_index.py:n_ptbma")

P("calc_scat in absorbing media",
  "In a medium of complex index, calc_scat returns the scattering coefficient number density times the cross section integrated by pymie at the particle surfaces (the largest radius; for polydisperse samples the two mean radii averaged with the concentrations), the absorption coefficient 4 pi Im(n)/wavelength, and a phase function that is a probability distribution over the angles proportional to structure factor times Mie intensities; the rough-surface coefficient uses the matrix index and no structure factor.",
  "all complex indices, radii, size distributions, structure factors, volume fractions, Mie intensities and integrators that are not negative",
  "A distribution has to come out for every sample and every wavelength; tests compare a few samples with stored numbers.",
  "structcol/montecarlo.py:calc_scat", "structcol/montecarlo.py:phase_function", "structcol/model.py:differential_cross_section", "structcol/model.py:polydisperse_form_factor")
P("The two models agree on absorbing samples",
  "For one absorbing sample described to reflection (single scattering) and to calc_scat (Monte Carlo): transport length times scattering coefficient times (1 - asymmetry parameter) is 1, and the reflectance depends on the thickness L through mu/(mu+mu_abs) (1 - exp(-(mu+mu_abs) L)) with calc_scat's two coefficients.",
  "all samples described to both, all thicknesses, Mie intensities and integrators that are not negative",
  "Two separately written modules have to use the same index, radii, surfaces and densities in every combination of switches.",
  "structcol/model.py:reflection", "structcol/montecarlo.py:calc_scat")
P("Phase function for polarised light (fields=True)",
  "calc_scat with fields=True returns a table over polar angles (rows) and azimuths (columns) of non-negative numbers that add up to 1 and are proportional to structure factor times the cartesian intensities in those directions; the scattering coefficient is number density times pymie's integral at the largest radius; the absorption coefficient is that of the medium.",
  "all indices, sizes, grids, intensities that are not negative; spheres of any number of layers",
  "The normalisation and the orientation of the table have to be right for every grid; a transposed table of a symmetric example passes a test.",
  "structcol/montecarlo.py:calc_scat", "structcol/montecarlo.py:phase_function")
P("Every phase function can be sampled",
  "Angles can be drawn by sample_angles from any phase function calc_scat returns (1D and fields=True): no ValueError, nevents-1 rows of ntraj pairs, all on calc_scat's grid, never a direction into which nothing is scattered - provided something is scattered (for each azimuth of a table) in a direction other than exactly backwards.",
  "all samples, grids, numbers of events and trajectories, random draws",
  "numpy rejects probabilities that are NaN, negative or do not add up; whether that can happen depends on every sample and grid.",
  "structcol/montecarlo.py:calc_scat", "structcol/montecarlo.py:sample_angles")

P("Shares of the light returned per trajectory",
  "The arrays that calc_refl_trans returns with return_extra=True split each trajectory's share 1/ntraj of the light: the part reflected at the entrance, the parts passing the surface backwards and forwards and the parts reflected back at the surface are non-negative and add up to at most 1/ntraj; the passing and reflected parts add up to the light let in times the weight the trajectory has at its exit event; without absorption the five parts of a trajectory that leaves add up to exactly 1/ntraj.",
  "all samples, boundaries, detection angles, coverslips, re-run settings, draws, numbers of trajectories and trajectories (the exact forms for detection of the whole hemisphere without rough surfaces)",
  "a test looks at the returned arrays of a few runs; the balance must hold for every trajectory of every run",
  "structcol/detector.py:calc_refl_trans", "structcol/detector.py:fresnel_correct_exit", "structcol/detector.py:calc_outcome_weights")
P("Fine roughness is an effective surface index",
  "calc_refl_trans with fine_roughness f, n_particle and n_matrix treats the surface as one of a smooth sample of index f*max(n_particle, n_matrix) + (1-f)*|n_sample|: exits, light entering, and the split at the surface are those of that sample, and when the whole hemisphere is detected and that index is not below the sample's, so is everything returned.",
  "all fractions f in [0,1], positive indices, samples, boundaries, trajectories (no goniometer; the last statement without re-runs)",
  "the equivalence relates two different calls for all inputs",
  "structcol/detector.py:calc_refl_trans")

P("The answer does not depend on the orientation of the sample",
  "Without a goniometer and re-runs, calc_refl_trans answers the same (numbers, NaN or exception, all returned arrays) for trajectories turned about the z axis or mirrored in a plane through it, for films and spheres; for a film, for any two simulations with the same heights, slopes and weights.",
  "all samples, detection angles, coverslips, roughness settings, trajectories, angles of rotation and mirror planes (spheres: positions within 1e20 radii of the axis)",
  "a symmetry relates two runs for every input",
  "structcol/detector.py:calc_refl_trans", "structcol/detector.py:find_valid_exits", "structcol/detector.py:get_angles", "structcol/detector.py:exit_kz")
P("The answer does not depend on the unit of length",
  "Multiplying all lengths (positions, thickness, z_low, 1/mu_abs) by one positive factor does not change what calc_refl_trans returns without goniometer and re-runs - for films always, for spheres whose surface does not refract.  For spheres with an index contrast the claim is false: the direction in which a ray leaves, and so whether it counts as reflected or transmitted, is computed with a rotation axis that is not normalised and depends on the size of the sphere.",
  "all samples, trajectories and positive factors",
  "scale invariance relates two runs for every input and factor; a test in one unit cannot see its failure",
  "structcol/detector.py:calc_refl_trans", "structcol/detector.py:exit_kz", "structcol/detector.py:rotate_refract")
P("Events after the exit do not count",
  "Following trajectories that have left the sample for more events (and leaving the others as they are) changes nothing that calc_refl_trans returns (no goniometer, no re-runs).",
  "all samples, boundaries, trajectories that leave and continuations",
  "what happens after the exit must be ignored for every continuation",
  "structcol/detector.py:calc_refl_trans", "structcol/detector.py:calc_outcome_weights")
P("The order of the trajectories does not matter",
  "Reordering the trajectories does not change the reflectance and transmittance calc_refl_trans returns, nor whether it returns numbers, NaN or an exception (no goniometer, no re-runs, no rough surface arrays).",
  "all samples, lists of trajectories and permutations",
  "a relation between two runs for every permutation",
  "structcol/detector.py:calc_refl_trans")
P("More absorption never means more reflectance or transmittance",
  "If the whole hemisphere is detected and the surface index is not below the sample's, taking weight from any trajectories at any events - as a larger absorption coefficient does - never raises the reflectance or the transmittance calc_refl_trans returns.  With a limited detection angle this is false: dimming light that misses the detector can raise the reflectance, because the share of the stuck light counted as detected is that of the light which left.",
  "all samples, boundaries, coverslips, trajectories and weights (no goniometer, no re-runs)",
  "monotonicity relates two runs for every input",
  "structcol/detector.py:calc_refl_trans", "structcol/detector.py:distribute_ambig_traj_weights", "structcol/montecarlo.py:Trajectory.absorb")
P("A larger detector never detects less",
  "Raising detection_angle never lowers the reflectance or the transmittance calc_refl_trans returns, and never changes whether it returns numbers, NaN or an exception (no goniometer, no re-runs, no rough surface arrays).",
  "all samples, boundaries, coverslips, trajectories and pairs of angles",
  "monotonicity relates two runs for every input",
  "structcol/detector.py:calc_refl_trans", "structcol/detector.py:detect_correct")

P("Rough-surface facets follow the stated slope law",
  "With coarse_roughness r, the tilt of the facet each trajectory enters through is drawn from 500 equally spaced angles between 0 and 90 degrees with probabilities proportional to the density for which the slope is below x with probability 1-exp(-x^2/(2r^2)); the tilt is strictly between 0 and 90 degrees, every such angle can be drawn, and r = 0 means flat facets.",
  "all roughnesses, numbers of trajectories and random draws",
  "a statement about a probability law and all draws; sampling cannot confirm it",
  "structcol/montecarlo.py:coarse_roughness_enter", "structcol/montecarlo.py:P_theta_a")
P("Light enters a rough film through its facet by Snell's law",
  "initialize with coarse_roughness starts every trajectory in the spot at z = 0 with weight 1 and a unit direction whose angle with the facet's normal obeys Snell's law; kz0_rot is the cosine of the incidence angle at the facet and kz0_refl the z component of the mirror image of the incident direction at the facet.  At normal incidence the refracted light always goes into the sample and the reflected light goes back up exactly if the facet is tilted by less than 45 degrees.  Spheres are rejected.",
  "all incidence cones, indices, roughnesses and draws",
  "a geometric law for all directions, tilts and indices",
  "structcol/montecarlo.py:initialize", "structcol/montecarlo.py:coarse_roughness_enter")
P("A run on a rough film accounts for the energy",
  "A run on a film with coarse_roughness never raises, and gives fractions R >= 0, T >= 0, R+T <= 1.  Without absorption and with full detection R+T is 1 minus the mean, over the trajectories, of the light reflected downwards at the facet; so R+T = 1 at normal incidence if all drawn facets are tilted by less than 45 degrees.  For steeper facets energy conservation is false: light reflected downwards by a facet is neither reflected nor transmitted.",
  "all incidence cones, roughnesses, samples and draws (film, no re-runs)",
  "an exact balance over whole runs for all draws",
  "structcol/montecarlo.py:initialize", "structcol/detector.py:calc_refl_trans", "structcol/detector.py:fresnel_correct_enter")
P("calc_fields fails only for missing angles",
  "Trajectory.calc_fields raises nothing but IndexError, and does so exactly if some trajectory has fewer sampled angles than events to scatter or, when tir_refl_bool is given, if some trajectory's first total reflection lies beyond the sampled angles.",
  "all amplitude matrices, indices, wavelengths and trajectories",
  "an exact characterisation of the failing inputs",
  "structcol/montecarlo.py:Trajectory.calc_fields")

P("Polydisperse structure factor: limits",
  "For every accepted mixture (one or two species, non-negative concentrations not all zero, positive diameters, any polydispersity) and every volume fraction in (0,1), structure.factor_poly tends to 1 as the scattering vector grows, with error at most K/q^2; for every non-zero scattering vector it tends to 1 as the volume fraction goes to 0, with error at most proportional to the volume fraction; and the normalisation it divides by is never zero.",
  "all mixtures, all polydispersities, all volume fractions, all scattering vectors (limits: for all error bounds)",
  "Limits and the absence of zeros of a transcendental function range over a continuum of q, phi and size distributions; a test sees finitely many points.",
  "structcol/structure.py:factor_poly")
P("Polydisperse structure factor: the size distribution behind it",
  "The averages factor_poly is built from are those of a Schulz (gamma) law of sizes with mean d and relative width pdi (at least 1e-5): the transform f0 is its characteristic function, f1 and f2 its first two derivatives (moments 1 and 1+pdi^2), the averages in the correlation matrix stay bounded by the distribution's moments at all q, and the two places computing the same average agree.",
  "all diameters, polydispersities, volume fractions and scattering vectors",
  "A differential equation, derivatives and uniform bounds are statements about all q at once; tests compare numbers at chosen q.",
  "structcol/structure.py:factor_poly")
P("Index oils have their labelled index at the sodium D line",
  "For every series and cardinal number, refractive_index.n_cargille at 589.3 nm is the index on the bottle (AAA 1.300-1.395, AA 1.400-1.458, A 1.460-1.640, B 1.642-1.700, E 1.500-1.640, acrylic 1.4917) to the accuracy of the tabulated coefficients, 5e-5.",
  "all six series and all 201 oils",
  "The repository's test checks one or two oils; the claim is about every oil of every series.",
  "structcol/refractive_index.py:n_cargille")

P("Polydisperse structure factor: the monodisperse limit",
  "For one species, as the polydispersity goes to 0 the value computed by factor_poly tends to factor_py(q d, phi) with an error of at most K pdi^2, as the code's comment says (\"if the pdi is zero, assume it's very small (we get the same results)\"), except exactly at the scattering vectors where the form factor of the sphere vanishes (tan(q d/2) = q d/2): there it tends to 1, while factor_py is (4+y^2)/(4((1+2phi)/(1-phi))^2+y^2) < 1, y = q d.  A polydispersity below 1e-5 is computed as 1e-5.",
  "all scattering vectors, volume fractions in (0,1) and diameters; all small widths",
  "A limit in the width at every scattering vector; the exceptional points are a null set no test hits.",
  "structcol/structure.py:factor_poly", "structcol/structure.py:factor_py")

P("A whole Monte Carlo calculation for an absorbing sample returns fractions",
  "For any absorbing film (complex index of the particles' surroundings) whose description calc_scat accepts, at an index not below that of the medium, calc_scat returns a non-negative scattering coefficient and the absorption coefficient 4 pi Im(n)/wavelength; if the scattering coefficient is positive and some light is scattered other than exactly backwards, then calc_scat, sample_angles, sample_step, the trajectories and calc_refl_trans, chained as in the tutorials, do not raise whatever the random draws, and the reflectance and transmittance (for films if numbers, for spheres always numbers) are non-negative and add up to at most 1.",
  "all absorbing samples calc_scat accepts, all Mie intensities and integrators with non-negative values, all draws, numbers of events and trajectories, detection settings and, for spheres, all re-runs",
  "A test runs one sample with one seed.",
  "structcol/montecarlo.py:calc_scat,phase_function,sample_angles,sample_step", "structcol/detector.py:calc_refl_trans")

P("A film of structured spheres: from one sphere's run to the film's fractions",
  "Feed the shares, exit events and exit normals of a run on one sphere to calc_scat_bulk and its phase function and coefficients to the film calculation (sample_angles, sample_step, trajectories, calc_refl_trans). If light is scattered out of the sphere (with positive shares and no exit exactly sideways), the bulk scattering coefficient is positive, the bulk absorption coefficient not negative, the film calculation does not raise whatever the random draws, and the film's reflectance and transmittance, if numbers, are fractions that add up to at most 1, and to exactly 1 if neither the sphere nor the matrix absorbs and everything is detected. If no light is scattered out, the film calculation raises TypeError.",
  "all runs on a sphere with any re-runs and draws, all bandwidth rules, volume fractions, diameters, matrix indices, film parameters and draws",
  "The one test of the bulk calculation stops at the coefficients of one sphere.",
  "structcol/phase_func_sphere.py:calc_scat_bulk,calc_mu_scat_abs,calc_pdf", "structcol/montecarlo.py:sample_angles,sample_step", "structcol/detector.py:calc_refl_trans")

P("The whole calculation does not depend on the unit of length",
  "Describing the same sample with every length multiplied by one positive factor, calc_scat returns the same phase function, and scattering and absorption coefficients divided by that factor; and the whole calculation for a film - calc_scat, sample_angles, initialize, sample_step, the trajectories and calc_refl_trans with the same random draws - returns exactly the same results, or raises the same error.",
  "all samples (real or complex indices, layered, binary or polydisperse particles with relative widths up to 1/3, all structure factors, rough surfaces), all positive factors, all draws",
  "relates two whole calculations for every sample and factor; tests run in one unit",
  "structcol/montecarlo.py:calc_scat", "structcol/montecarlo.py:phase_function", "structcol/model.py:differential_cross_section", "structcol/model.py:polydisperse_form_factor", "structcol/structure.py:factor_poly", "structcol/montecarlo.py:sample_step", "structcol/detector.py:calc_refl_trans")

P("The whole calculation for a film with a rough surface is a fraction, and fine roughness that touches no trajectory changes nothing",
  "For a film whose surface has fine roughness (a share of the surface) and coarse roughness (tilted facets), in a medium that may absorb, calc_scat returns non-negative coefficients - one more when there is fine roughness - and the chain calc_scat, sample_angles, initialize, sample_step, trajectories, calc_refl_trans does not raise; reflectance and transmittance, if numbers, lie in [0,1] and add up to at most 1, and to exactly 1 on a plain call with full detection without absorption or coarse roughness. Fine roughness leaves the phase function and the other coefficients alone; without roughness the result is that of a smooth film; with a share of the surface amounting to at most half a trajectory, the result is exactly that without fine roughness.",
  "all samples calc_scat accepts, all roughness shares and slopes, all numbers of events and trajectories, all random draws",
  "the tests run a handful of roughnesses for one sample and one seed",
  "structcol/tests/test_detector.py:calc_montecarlo", "structcol/montecarlo.py:calc_scat,initialize,sample_step,coarse_roughness_enter", "structcol/detector.py:calc_refl_trans")

P("A thicker index-matched film reflects no less and transmits no more",
  "Take a film whose index equals that of the medium around it (no index step at either face). Analyse the same trajectories, or the same random draws of a whole run, with calc_refl_trans for thickness d and for any thickness d' >= d. Every trajectory reflected by the thin film is reflected at the same event by the thick one, every trajectory that never leaves the thin film never leaves the thick one, and one transmitted by the thin film leaves the thick one at that event or later or not at all. The reflectance does not go down and the transmittance does not go up - exactly without absorption, and up to the 10^-9 with which the code keeps its fractions away from 0/0 with absorption. With an index step at the faces this fails for single paths: there is a path that a film of thickness 1 reflects and one of thickness 2 transmits.",
  "all index-matched films with full detection, no coverslips and no re-runs, all pairs of thicknesses, all sets of trajectories that follow their directions with fading weights starting inside the film, all draws of a whole run (absorbing or not)",
  "A comparison between two runs for all pairs of thicknesses, all paths and all weights; a test sees one pair and its Monte Carlo noise hides a wrong trend.",
  "structcol/detector.py: calc_refl_trans, find_valid_exits, find_event_indices, calc_outcome_weights", "structcol/montecarlo.py: initialize, Trajectory.move, Trajectory.absorb")

P("Pooling runs: spheres average exactly, films up to the light reflected back at the exits",
  "Analyse two sets of trajectories separately with calc_refl_trans and then together (joined, as when a long run is split into batches). If both parts give numbers, so does the pooled call. For a sphere the pooled reflectance and transmittance are exactly the averages of the parts weighted with their numbers of trajectories; for a film they differ from these averages by no more than the light reflected back into the film at its exits, which the pooled call itself returns (refl_fresnel + trans_fresnel). Exact averaging is false for films: one ray that comes back and one that passes a film of index 3/2 reflect less together than on average. Analysing every trajectory k times instead of once changes nothing, for films and spheres.",
  "all pairs of non-empty sets of trajectories, all films and spheres with full detection and without goniometer, coarse roughness or re-runs, with and without coverslips and absorption, all numbers of copies",
  "A relation between three calls for all sets of trajectories; splitting a run into batches is common practice, and a test of one split cannot bound the error for others.",
  "structcol/detector.py: calc_refl_trans, distribute_ambig_traj_weights, fresnel_correct_exit")

P("Whole calculation with electric fields on a film",
  "Launching trajectories on a film with fields=True, sampling angles and steps, scattering, moving, absorbing, calling calc_fields, calc_refl_trans and calc_refl_co_cross_fields never raises, and its reflectance is that of the same run without fields. Co-, cross- and perpendicular intensities and both reflectances are non-negative; the coherent reflectance is at most the number of reflected trajectories times the incoherent one; the incoherent one is at most the sum, over reflected trajectories, of the reflectances handed over, a fraction at most 1 (at most the reflectance if the documented array is handed over, exactly the light that passes the surface if the array used in the tutorial is and the amplitudes S1, S2 do not vanish). At normal incidence every reflected field is perpendicular to its trajectory's direction. The same holds starting from calc_scat with fields=True.",
  "every film with a sample index not below the medium's (any coverslips, detection angle, goniometer, absorption), every number of events and trajectories, every amplitude matrix, launch cone, wavelength and every value of the random draws; no re-runs",
  "a run samples random draws; one run says nothing about the others, and the bounds have to hold for every amplitude matrix",
  "structcol/montecarlo.py:Trajectory.calc_fields", "structcol/montecarlo.py:initialize", "structcol/detector_polarization_phase.py:calc_refl_co_cross_fields", "structcol/detector.py:calc_refl_trans", "structcol/tests/test_fields.py")

P("Coherent reflectance averages to the incoherent reflectance",
  "Multiplying all fields of each trajectory by its own unit phase factor exp(2 pi i t) leaves the incoherent reflectance of calc_refl_co_cross_fields unchanged; averaged over independent uniform phases, the coherent reflectance equals the incoherent one exactly, and the co-polarized, cross-polarized and perpendicular intensities equal the number of trajectories times the sums, over reflected trajectories, of reflectance times that component's intensity. In a whole calculation launched with coherent=False, shifting the random launch phases of each trajectory changes neither trajectories nor detection, and the coherent reflectance averages over the shifts to the incoherent one.",
  "every number of trajectories and events, all fields, reflection events, non-negative reflectances, detector angles and, for whole runs, every film, amplitude matrix and value of the other draws; the mean is the iterated integral over all phases in [0, 1]",
  "the mean ranges over a continuum of phases for each of any number of trajectories; tests can only estimate it with noise",
  "structcol/detector_polarization_phase.py:calc_refl_co_cross_fields", "structcol/detector_polarization_phase.py:calc_refl_phase_fields", "structcol/montecarlo.py:initialize", "structcol/montecarlo.py:Trajectory.calc_fields")

P("Scattering about fixed axes gives films the right statistics",
  "Trajectory.scatter turns directions about the fixed y and z axes, not in the local frame its documentation describes. For unpolarised light (uniform azimuths) launched at normal incidence, or obliquely at azimuths uniform over the full turn, every quantity computed from the z components of all directions of a trajectory has exactly the mean it has under scattering in local frames, and everything computed from the result of a whole calculation on a film (reflectance, transmittance, any of the per-trajectory shares) has the same mean over the azimuths.",
  "every number of events and trajectories, all polar angles, steps and other draws, every film without goniometer or re-runs, every function of the result; the mean is the iterated integral over all azimuths",
  "equality of two probability laws over any number of continuous azimuths; a test could at best compare noisy averages for one film",
  "structcol/montecarlo.py:Trajectory.scatter", "structcol/montecarlo.py:initialize", "structcol/detector.py:calc_refl_trans")

P("Directions any number of scatterings apart have the mean cosine of the phase function",
  "For a trajectory scattered at given polar angles and uniform azimuths, the mean direction after j scatterings of light launched along +z is along +z with length the product of the cosines of the polar angles, and the mean cosine between the directions i and i+d is the product of the cosines in between. Light launched obliquely at a fixed azimuth has, after one scattering, mean z component cos(theta0) cos(theta1).",
  "every number of scatterings, all polar angles, all pairs of events; means over all azimuths",
  "exact means over any number of continuous azimuths",
  "structcol/montecarlo.py:Trajectory.scatter", "structcol/montecarlo.py:sample_angles")

P("Unscattered light obeys Beer-Lambert",
  "In a Monte Carlo calculation at normal incidence on a film of thickness d, the light that leaves through the back without having been scattered is, on average over the random steps, the fraction that both surfaces (with their coverslips) let through at normal incidence times exp(-(mu_scat + mu_abs) d), whatever the other random draws; each such trajectory is attenuated by absorption over the film only.",
  "every number of events and trajectories, spot size, scattering and absorption coefficient, thickness, indices with n_medium <= n_sample, coverslips, and all other random draws; the mean is the iterated integral over the first step draws",
  "the mean over all draws is an integral, not a finite number of runs; Monte Carlo noise of a test hides the albedo factor, which is close to 1 in weakly absorbing samples",
  "structcol/montecarlo.py:sample_step", "structcol/montecarlo.py:Trajectory.absorb", "structcol/detector.py:calc_refl_trans", "structcol/detector.py:fresnel_pass_frac")

P("Averages over independent trajectories are unbiased with variance 1/n",
  "The reflectance and transmittance that a Monte Carlo calculation returns for n independent trajectories have the same mean as for a single trajectory and 1/n times its variance, so that more trajectories only reduce the noise. This holds for spheres; for films it holds for the light that the two surfaces let through at the exits, while the mean of the reflectance and of the transmittance can depend on the number of trajectories, by no more than the mean light that the surfaces send back into the film.",
  "every number of events and trajectories, sample, spot size, launch cone and every way to make the draws of one trajectory from any number of uniform random numbers; mean and variance are iterated integrals",
  "means and variances over all draws are integrals; a test sees one noisy estimate and cannot tell a small bias from noise",
  "structcol/detector.py:calc_refl_trans", "structcol/detector.py:distribute_ambig_traj_weights", "structcol/montecarlo.py:initialize", "structcol/montecarlo.py:Trajectory.absorb")

P("Light scattered once obeys the single-scattering law of a slab",
  "In a Monte Carlo calculation at normal incidence on a film of thickness d, the light that leaves after exactly one scattering, at the angle theta to the inward normal, is on average over the random steps the entrance fraction times the exit fraction that fresnel_pass_frac gives for that angle, times the albedo mu_scat/(mu_scat+mu_abs), times the slab integral: c/(1+c) (1 - exp(-(mu_scat+mu_abs) d (1+1/c))) with c=|cos theta| backwards, and c/(1-c) (exp(-(mu_scat+mu_abs) d) - exp(-(mu_scat+mu_abs) d/c)) forwards ((mu_scat+mu_abs) d exp(-(mu_scat+mu_abs) d) straight on), averaged over the angles of the trajectories; light scattered into total reflection contributes nothing.",
  "every number of events (at least two) and trajectories, spot size, coefficients, thickness, indices with n_medium <= n_sample, coverslips, scattering angles of each trajectory and all other random draws; the mean is the iterated integral over the first two step draws of every trajectory",
  "the mean over all draws is an integral; a Monte Carlo test cannot separate the once-scattered light from noise, let alone the second factor of the albedo",
  "structcol/montecarlo.py:sample_step", "structcol/montecarlo.py:Trajectory.scatter", "structcol/montecarlo.py:Trajectory.absorb", "structcol/detector.py:calc_refl_trans", "structcol/detector.py:fresnel_pass_frac")

P("Unscattered light at oblique incidence",
  "A film simulation whose trajectories enter at angles between theta_min and theta_max (below 90 degrees): a trajectory is counted as leaving through the back with its first step exactly when that step, along the direction given by Snell's law, reaches the back of the film, and what it carries out is what the two surfaces (coverslips included, textbook Fresnel formulas) let through at its angles times exp(-mu_abs x step). Averaged over all first steps, the light transmitted without scattering is the average over the angles of incidence of that surface factor times exp(-(mu_scat + mu_abs) thickness / cos(inner angle)), times the albedo mu_scat/(mu_scat + mu_abs): for a parallel beam without absorption this is the Beer-Lambert law along the slanted path.",
  "all smooth films (sample index at least the medium's, any coverslips that do not reflect the light totally), ranges of incidence, numbers of events and trajectories, coefficients and draws",
  "The law is about the average over a continuum of random numbers and about every angle of incidence.",
  "structcol/montecarlo.py:initialize", "structcol/montecarlo.py:sample_step", "structcol/detector.py:calc_refl_trans", "structcol/detector.py:fresnel_pass_frac", "structcol/__init__.py:refraction")

P("Absorption acts through the path length of each trajectory",
  "Running the same trajectories (same positions, directions and steps) with absorption coefficients 0 and a, without fresnel re-runs: they leave at the same events, the light reflected on entry is the same, and what each trajectory sends through the front and the back surface is the unabsorbed amount times exp(-a * path length) with the path length that event_distribution.calc_path_length reports for it. So one run without absorption determines the light let through for every absorption coefficient, and more absorption never lets more light through. The length is not the path inside the sample: it counts the whole of the last step, so an absorbing film gives less light than absorption along the path inside would leave.",
  "every set of trajectories, film or sphere, every absorption coefficient, all random draws, step counts, coverslips, launch cones; the re-runs of fresnel-reflected light off",
  "It relates the result of two runs for all absorption coefficients and all draws; a test compares a few numbers of one random run within statistical error.",
  "structcol/montecarlo.py:Trajectory.absorb", "structcol/detector.py:calc_refl_trans", "structcol/detector.py:calc_outcome_weights", "structcol/event_distribution.py:calc_path_length")

P("The simulated light walk drifts by the transport length",
  "With scattering angles drawn from a phase function and given step lengths s_0, s_1, ..., a trajectory that starts at the origin along +z has mean position (0, 0, sum of s_j g^j) after m events, where g is the asymmetry parameter (mean cosine, weighted by phase function times sin) of the table of angles; g is always strictly between -1 and 1, the mean of a drawn step is 1/mu, and with mean steps the mean depth tends to the transport length 1/(mu (1 - g)). The mean square of the z component of the direction after j scatterings is (1 + 2 q^j)/3, q the mean second Legendre polynomial of the cosine, and the mean square depth is the double sum of s_i s_j times the correlation g^|i-j| (1 + 2 q^min(i,j))/3.",
  "every non-negative table of phase function values with positive total weight, every lower end of the angle grid, every sequence of steps, every number of events, every scattering coefficient; means over all random numbers that draw the angles (and, for one step, over its random number)",
  "A test compares the average of finitely many simulated trajectories with a tolerance; the statement is about the exact mean for every phase function and every number of scattering events.",
  "structcol/montecarlo.py:sample_angles", "structcol/montecarlo.py:sample_step", "structcol/montecarlo.py:Trajectory.scatter", "structcol/montecarlo.py:Trajectory.move")

P("Light scattered once follows the phase function, and linearly in the thickness for thin films",
  "For a smooth film at normal incidence (no re-runs, no goniometer), averaged over the random numbers that draw the first scattering angle from the phase function and the first two steps, the light reflected (transmitted) after exactly one scattering is: what the entrance lets in, times the average, over the angles of the phase function table with its probabilities, of what the surface lets out at that angle times the single-scattering integral of a slab. Without absorption this is never more than thickness times mu_scat times what the surfaces let in and out on average over the angles to that side, and its ratio to the thickness tends to exactly that for thin films.",
  "every non-negative phase function table with positive total weight, every smooth film with any coverslips, every number of events and trajectories, every scattering coefficient; means over three random numbers per trajectory",
  "It is an equality of exact means over all random draws and a limit in the thickness; a test can only compare random averages at a few thicknesses.",
  "structcol/montecarlo.py:sample_angles", "structcol/montecarlo.py:sample_step", "structcol/detector.py:calc_refl_trans", "structcol/detector.py:fresnel_pass_frac")

P("Effective indices respect the classical bounds", "For every mixture of transparent constituents n_eff's Bruggeman index n has n^2 between the harmonic and the arithmetic volume average of the constituents' squared indices; Maxwell-Garnett's index has the same bounds. With one kind of particle the Bruggeman index lies between the Maxwell-Garnett index of particles in matrix and that of matrix in particles. Bruggeman's index does not depend on the order in which the constituents are listed or on which of them is called the matrix, does not fall when any constituent's index rises, and rises when matrix is traded for particles of larger index; in the dilute limit it agrees with Maxwell-Garnett to first order in the volume fraction.", "every number of constituents, all positive real indices, all volume fractions, every root finder that returned a positive root", "a test evaluates single mixtures; bounds, orderings, permutation invariance and orders of agreement are statements about all mixtures", "structcol/refractive_index.py:n_eff")

P("How many trajectories are enough",
  "Launch n independent trajectories. The probability that the reflectance (or the transmittance) of a sphere misses its mean by eps or more is at most 2 exp(-2 n eps^2), whatever the size of the sphere, the index, the absorption, the phase function and the mean free path; so n >= ln(2/delta)/(2 eps^2) trajectories put it within eps of the mean with a probability of at least 1 - delta. For a smooth film the same bound holds for the light let through by either surface, and the reflectance and the transmittance themselves stay within f + 2 eps of their one-trajectory means but for a probability of 4 exp(-2 n eps^2), where f is the mean light that the surfaces send back.",
  "every number of trajectories and events, every smooth sphere or film without re-runs, every way to make one trajectory's draws from uniform random numbers, every eps and delta",
  "The bound is about the distribution of the results over all draws, for every sample at once; tests run a few seeds of a few samples and cannot bound the tail of a distribution.",
  "structcol/detector.py:calc_refl_trans", "structcol/montecarlo.py:initialize", "structcol/montecarlo.py:sample_step", "structcol/montecarlo.py:sample_angles", "structcol/detector.py:set_up_values")

P("How many events are enough",
  "A run with more scattering events per trajectory (same random draws for the shared events, no fresnel re-runs) never brings back a trajectory that has left: the share of trajectories still inside after the last event does not grow. For a sphere the reflectance and the transmittance change by at most half of that share, so the share (read off refl_indices and trans_indices) is twice an upper bound of the error of stopping at nevents. For a smooth film the light let through by each surface does not decrease and grows in total by at most the share still inside, and the reflectance and transmittance change by at most the share times 1/2 plus the ratio of the light sent back by the surfaces to the light they let through.",
  "every smooth film or sphere without re-runs, every pair of event counts, every number of trajectories, every scattering and absorption coefficient, all random draws",
  "It compares runs of every length with one another for all draws; a test compares a few lengths for a few seeds and can only see that the result settles.",
  "structcol/montecarlo.py:Trajectory.absorb", "structcol/montecarlo.py:Trajectory.move", "structcol/detector.py:calc_refl_trans", "structcol/detector.py:find_valid_exits", "structcol/detector.py:distribute_ambig_traj_weights")

P("Almost all light leaves a film",
  "A film run whose scattering angles and steps are drawn as sample_angles and sample_step draw them, from a phase function that from every direction brings light, with probability at least beta, to a direction steeper than c (beyond total internal reflection): the mean share of the trajectories still inside falls at least as fast as (1 - beta exp(-mu d/c))^j with the number of events, d the film's thickness and mu the scattering coefficient. So does the mean amount of light that any larger number of events would still let through, and the probability that this amount exceeds eps. The bound tends to 0, for absorbing and for non-absorbing films: with enough events the sum of what is let through and absorbed is everything. A table of the phase function meets the condition when from every direction one of its angles turns light beyond c.",
  "every smooth film without re-runs, every phase function table, every starting angle, every scattering and absorption coefficient, every number of events and trajectories, all distributions of launch and first step",
  "It is a limit over the number of events of an average over all random draws; a test can run a finite number of events for a few seeds, and cannot show that no trajectory is trapped for ever.",
  "structcol/montecarlo.py:Trajectory.scatter", "structcol/montecarlo.py:Trajectory.move", "structcol/montecarlo.py:sample_angles", "structcol/montecarlo.py:sample_step", "structcol/detector.py:calc_refl_trans", "structcol/detector.py:find_valid_exits")

P("The whole calculation follows the phase function it computes",
  "If calc_scat returns a phase function p and a scattering coefficient, the whole calculation (calc_scat, sample_angles, sample_step, the trajectories, calc_refl_trans) is the Monte Carlo run in which scattering k of trajectory i has the angles that the k-th, i-th random numbers pick from p, for every trajectory and every event: no row or column of the sampled arrays is left out, shifted or used twice, whatever the random numbers. So what holds for light that walks as p says holds for the calculation from the description of the sample; for a film, the mean share of the trajectories still inside falls geometrically with the number of events, at a rate read off p, the two coefficients and the thickness.",
  "every sample, absorbing or not, whose phase function has some weight, every film and sphere, every number of events and trajectories, all random numbers",
  "It ranges over all random numbers and all sizes of the arrays; a shifted row gives angles of the right distribution, which no test of the results can tell from the right ones.",
  "structcol/montecarlo.py:calc_scat", "structcol/montecarlo.py:sample_angles", "structcol/montecarlo.py:sample_step", "structcol/montecarlo.py:Trajectory.scatter", "structcol/detector.py:calc_refl_trans")

P("Almost all light leaves an index-matched sphere",
  "A Monte Carlo run in a sphere of the same index as the medium around it, whose launch azimuths, scattering angles and steps are drawn as the code draws them: the run always returns numbers, and the mean share of the trajectories still inside falls at least as fast as (1 - exp(-mu d))^j with the number of events, d the sphere's diameter and mu the scattering coefficient, whatever the phase function. Light that leaves in an exactly horizontal direction is never counted as having left; the probability of that is zero. The mean change of the reflectance and of the transmittance that any larger number of events would bring is at most half of this share, and the probability of a change of eps or more at most the share over 2 eps; both tend to 0.",
  "every smooth index-matched sphere without re-runs, every phase function table, every starting angle, every scattering and absorption coefficient, every number of events and trajectories, every spot no larger than the sphere, all distributions of the launch distance from the axis and of the first step",
  "It is a limit over the number of events of an average over all random draws; tests of a few seeds cannot show that no set of draws of positive probability keeps a trajectory inside for ever, which the code's z-direction criterion for leaving could do.",
  "structcol/montecarlo.py:initialize", "structcol/montecarlo.py:Trajectory.scatter", "structcol/montecarlo.py:Trajectory.move", "structcol/montecarlo.py:sample_angles", "structcol/montecarlo.py:sample_step", "structcol/detector.py:calc_refl_trans", "structcol/detector.py:find_valid_exits")

P("The single-scattering model and the Monte Carlo model agree on thin films",
  "A non-absorbing film in a medium of its own index, normal incidence, everything scattered backwards detected, the same description of the sample given to the single-scattering model (reflection) and to calc_scat: with enough angles and a thin enough film, the model's reflectance per thickness and the mean, over the draws the code makes, of the Monte Carlo reflectance of once-scattered light per thickness are both as close as one likes to the same textbook number, the number density of the particles (volume fraction over mean particle volume) times the integral of the unpolarised differential cross section over the backward half of the sphere. The Monte Carlo value carries the factor 1/(1 + 1e-9) of fresnel_pass_frac once per surface.",
  "every non-absorbing sample of one or two species, structure and form factor the package accepts, with any Mie amplitudes; every lowest angle up to pi/2; every tolerance; every number of trajectories and of events (at least two); all launch draws and azimuths",
  "It is a double limit (number of angles, thickness) of an average over random draws, for arbitrary cross sections; the two models share no code path after the differential cross section, so a wrong solid angle, a missing factor of k or a wrong normalisation in either shows up only in this limit.",
  "structcol/model.py:reflection", "structcol/montecarlo.py:calc_scat", "structcol/montecarlo.py:phase_function", "structcol/montecarlo.py:sample_angles", "structcol/detector.py:calc_refl_trans")

P("A coverslip passes light like a stack of two surfaces",
  "fresnel_pass_frac with a coverslip is the sum over any number of reflections inside it: follow unpolarised light through repeated Fresnel reflections at the two faces; what has left through the far face after k round trips tends to a number q, what has come back through the near face to 1 - q, and the function's value is at most 1e-9 below q and never above. The same share passes in both directions along the same path, with and without coverslip. A coverslip of the index of either side changes nothing. Along the normal a coverslip lets through at least as much as none exactly if its index lies between those of the two sides, and most if it is their geometric mean.",
  "all positive indices of the two sides and of the coverslip, all angles of incidence that are not totally reflected (all indices at normal incidence for the last claim)",
  "The infinite sum of reflections and the comparison over all indices are statements about all inputs; a test compares one stack with one number.",
  "structcol/detector.py:fresnel_pass_frac", "structcol/model.py:fresnel_reflection", "structcol/model.py:fresnel_transmission", "structcol/__init__.py:refraction")

P("The shape of Fresnel's curves",
  "For two angles of incidence up to 90 degrees, totally reflected ones included, fresnel_reflection's s-polarised reflectance at the larger angle is at least that at the smaller one; the p-polarised reflectance falls up to Brewster's angle, atan(n2/n1), and grows from there; it is never larger than the s-polarised one. fresnel_transmission does the opposite.",
  "all positive indices, all pairs of angles between 0 and 90 degrees",
  "Monotonicity over a continuum of angles and indices, across the critical angle where the code switches branches; tests check single angles.",
  "structcol/model.py:fresnel_reflection", "structcol/model.py:fresnel_transmission")

P("On fine angle grids the simulation samples the physical scattering law",
"For a sample without absorption, the grid of angles that calc_scat computes its phase function on, and that sample_angles draws scattering angles from, can be refined until nothing depends on it. For any tolerance there is a number of angles beyond which (a) the scattering coefficient that calc_scat returns is within the tolerance of the number density of particles times the total (polarisation-averaged) cross section, the integral over the sphere of the differential cross section that model.differential_cross_section reports, (b) the mean of any quantity of the scattering angle, over the random number the angle is drawn from, is within the tolerance of that quantity's average over the scattered light, and (c) the probability of a scattering angle up to any t is within the tolerance of the share of the scattered light that goes to angles up to t.",
"All particles, volume fractions, indices and wavelengths of a non-absorbing sample that calc_scat accepts, all form and structure factors and polydispersities it offers, all integrable functions of the angle, all tolerances",
"A test compares a few grids for a few samples; that the sampled law converges to the physical one for every sample and every quantity is a limit over all numbers of angles",
"structcol/montecarlo.py:calc_scat", "structcol/montecarlo.py:phase_function", "structcol/montecarlo.py:sample_angles", "structcol/model.py:differential_cross_section")

P("Flat layers do not change where light goes",
"refraction() agrees with itself across any number of parallel layers: calling it surface by surface gives the angle it gives for the first and the last medium alone, and NaN exactly if some layer on the way is too thin optically for the ray (index below n sin(angle)), so a coverslip never changes the direction in which light leaves, only whether it does. What comes out are exactly the rays that obey Snell's law at every surface. Of two rays the steeper one stays the steeper, light bends towards the normal in a denser medium, where it is never totally reflected, and away from it in a thinner one. In consequence a trajectory that leaves a film is counted by calc_refl_trans's detection aperture exactly if n_sample sin(its angle) <= n_medium sin(detection angle).",
"All angles, all positive indices, any number of layers of any indices, all detection angles, any number of trajectories",
"A test tries a few stacks and angles; the statement is for every stack of any number of layers",
"structcol/__init__.py:refraction", "structcol/detector.py:detect_correct", "structcol/detector.py:detect_corrected_traj")

P("The structure factor is the thermodynamics of hard spheres",
"factor_py, the structure factor of a suspension of hard spheres, obeys the compressibility relation: at long wavelengths it tends to the inverse of the slope of the spheres' osmotic pressure in the Percus-Yevick equation of state (whose first virial coefficients are the exact ones, 4 and 10). It follows that the denser of two suspensions has the smaller structure factor at all small scattering vectors, and both are below one there. In a dilute suspension (up to 1 per cent) the spheres only keep out of each other's way: at every scattering vector the structure factor is one minus the number density times the Fourier transform of the excluded sphere, to within 310 times the square of the volume fraction, and so differs from one by at most 12 times the volume fraction.",
"All volume fractions below 1 (dilute part: up to 0.01), all scattering vectors",
"A test compares a few values; the limit at long wavelengths, and bounds at every scattering vector with the same constant, are statements about all of them",
"structcol/structure.py:factor_py")

P("A row of goniometer detectors counts each trajectory once",
"A goniometer detector at angle theta sees exactly the light that arrives on the detection hemisphere between theta - d and theta + d, d = atan(det_len / (2 det_dist)). Detectors of equal size at angles at least 2d apart that do not reach past the plane of the sample never count a trajectory twice, so the light they detect together is at most what the trajectories carry, and two of them side by side leave no gap but the line where they touch. A detector at -theta counts the mirror images of the trajectories that a detector at theta counts, and mirroring the trajectories in the goniometer's plane changes nothing.",
"All detector sizes and distances, all rows of any number of detectors, all trajectories, exit events, indices and weights",
"A test tries a few detector angles; that no ray at all is counted by two detectors, or lost between them, is a statement about every ray and every row",
"structcol/detector.py:calc_indices_detected", "structcol/detector.py:calc_refracted_direction")

P("A film reflects at least what its surface reflects",
"For a parallel beam on a film, calc_refl_trans never returns a reflectance below, or a transmittance above, what the front surface alone gives: the reflectance is at least Fresnel's reflectance of the surface for the beam's angle (averaged over the polarisations), and the transmittance at most one minus that, whatever the sample scatters and absorbs. With a coverslip the bound is the light that the stack of its two surfaces returns after all reflections inside it.",
"All films, indices, scattering and absorption, all trajectories with the beam's starting direction, all numbers of trajectories and events, detection angles that include the beam's direction inside the film; no re-runs, goniometer or rough surface arrays",
"A test checks a few simulated films; the bound is for every film and every set of trajectories",
"structcol/detector.py:calc_refl_trans", "structcol/detector.py:fresnel_correct_enter", "structcol/detector.py:distribute_ambig_traj_weights", "structcol/detector.py:detect_corrected_traj")

P("A strongly absorbing film reflects only its surface",
  "In a whole Monte Carlo run on a smooth film (film, no goniometer, no re-runs) lit at an angle of incidence, let the absorption coefficient of the sample grow with everything else, including the random draws, held fixed. The reflectance tends to the fraction of the incident light that the surface (with its coverslip) turns back, for an uncoated film Fresnel's reflectance of the surface to within 1e-9, and the transmittance tends to 0. At absorption coefficient a both are within exp(-a l) of these limits when no trajectory's first step is shorter than l; the reflectance is never below the surface's. The same bounds hold for a run on a sphere, with the light the sphere's surface turns back on entry in place of the film's.",
  "every number of events and trajectories, every smooth film or sphere in a medium of no higher index, with or without coverslips, every random draw with positive first steps, every angle of incidence below 90 degrees (whose refracted angle lies inside the detection aperture), every absorption coefficient",
  "a test compares a few absorption coefficients with each other; the limit, its rate and its independence of the scattering are statements about all of them",
  "structcol/detector.py:calc_refl_trans", "structcol/montecarlo.py:Trajectory.absorb", "structcol/montecarlo.py:initialize")

P("A sphere's answer at every absorption is its path-length distribution",
  "For a Monte Carlo run on a sphere with all exiting light detected and no re-runs, with the random draws held fixed: there are a surface reflection, and finitely many non-negative parts of the light that count as reflected or as transmitted, each with a path length that is the length of the first k steps of one of the trajectories, all together at most the incident light, such that for every absorption coefficient a >= 0 the run answers, its reflectance is the surface reflection plus the sum of the reflected parts times exp(-a length), and its transmittance the sum of the transmitted parts times exp(-a length). Hence reflectance and transmittance decrease with a, are convex functions of a, and from a to b do not fall by more than the factor exp(-(b - a) m) if no path is longer than m. On a film the same law holds for the light its front and its back let through at the exits (before the light sent back there is redistributed).",
  "every sphere (for the exit law: every smooth film), incident spot and number of events and trajectories, every random draw, every absorption coefficient (all of them with the same parts and lengths)",
  "a unit test compares a few absorption coefficients; that one path-length distribution gives the answer at all of them, and monotonicity and convexity on the whole half-line, are universal statements",
  "structcol/montecarlo.py:Trajectory.absorb", "structcol/detector.py:calc_refl_trans", "structcol/detector.py:distribute_ambig_traj_weights")

P("Unpolarised light is reflected least at normal incidence",
  "For two media whose indices have a ratio n with n + 1/n <= 4 (n between 2 - sqrt 3 and 2 + sqrt 3; every sample the package is used for), the mean of fresnel_reflection's two polarisations is at no angle smaller than its value ((n1-n2)/(n1+n2))^2 at normal incidence. Hence the Monte Carlo reflectance of an uncoated film lit by a beam at any angle is at least that. For higher contrast the mean can dip below it: for indices 1 and 10 it does at Brewster's angle.",
  "all positive indices with n + 1/n <= 4, all angles below 90 degrees on both sides of the critical angle; every trajectory and every absorption for the film",
  "a minimum over a continuum of angles and indices with a sharp condition on the contrast; tests evaluate single angles",
  "structcol/model.py:fresnel_reflection", "structcol/detector.py:calc_refl_trans")

with open(os.path.join(os.path.dirname(__file__), "..", "properties.jsonl"), "w") as f:
    for o in out:
        f.write(json.dumps(o) + "\n")
print(len(out), "properties")
