# Formal model of structural-color (structcol) in Coq 8.16

## 1. Approach

`/repo/structcol` is a numerical package. What a user relies on is not one
number but laws that hold for *every* input: fractions stay in [0,1], energy is
conserved for every set of random draws, Snell's law holds, every trajectory is
counted once. The model is a shallow embedding, function by function, of the
Python source:

* **Numbers.** Python floats are modelled by Coq's real numbers `R` (exact
  arithmetic) and Coquelicot's complex numbers. Rounding is not modelled. Where
  IEEE special values steer the program, they are explicit: `num := option R`,
  with `None` = NaN (or a division by zero); comparisons with `None` are false,
  as in IEEE. Where the code relies on infinities (`1/0` in concentrations,
  infinite coordinates) the model has its own case.
* **Exceptions** are values: `result A := Ok a | Err e`.
* **Arrays** are lists. A (nevents, ntraj) array is a list of per-trajectory
  columns where the code works column by column; where the code couples
  trajectories (whole-array tests, fancy indexing, in-place updates) the model
  does too.
* **Random draws** are arguments: a theorem holds for every value of the draws.
* **Externals** (pymie, scipy's fsolve, factorial at real arguments) are
  function arguments; what is assumed about them is a hypothesis of the theorem
  (usually only that intensities are not negative).
* **Units** (pint) are stripped: all lengths in one unit, angles in rad. Where
  the code uses bare numbers whose meaning depends on the unit, the model keeps
  them and C86, C97 are about that.

Theorems about R are about the algorithm in exact arithmetic; they say nothing
about rounding error.

A property the code violates is kept in the list as the user would state it; the
file then has a theorem ending in `_refuted` (a counterexample, or a proof that
it fails for every input of a class) next to theorems for the part that holds,
and the claim is marked partial. Names ending in `_partial` prove the property
under an extra restriction.

## 2. Files (rocq/theories)

| file | contents |
|---|---|
| `Num.v` | numeric prelude: results, NaN, boolean comparisons, sums, argmax, trapezoid, linspace |
| `Spec*.v` | independent vocabulary of the statements (vectors, Snell's law, fractions, cross sections, what a draw picks, ...); no reference to the model's algorithms except its argument records |
| `M_*.v` | the model, no proofs, every definition cites file and lines |
| `L_*.v` | lemmas and proofs |
| `Properties_*.v` | the property theorems, each followed by `Print Assumptions` and an `Example` showing that its hypotheses can be met |

## 3. What is modelled and what is not

| module | modelled | not modelled |
|---|---|---|
| `__init__.py` | refraction, normalize, select_events | unit registry |
| `model.py` | reflection (both branches; pymie's integrator of intensities in absorbing media is an argument), differential_cross_section and polydisperse_form_factor (scattering plane, real and complex media; cartesian for spheres), size_distribution, _integrate_cross_section, fresnel_reflection/transmission (real and complex indices), _number_density, absorption_cross_section | Mie solvers (arguments), polydisperse particles in cartesian coordinates |
| `montecarlo.py` | Trajectory.absorb/scatter/move/calc_fields, initialize (film and sphere, coarse roughness), calc_scat and phase_function (real and complex indices, fields=True), sample_angles, sample_step, coarse_roughness_enter, P_theta_a, a whole run (smooth and rough films, spheres, bulk films) | MCSimulation/MCResult (empty shells), plotting, polydisperse samples with fields=True (marked TODO in the code) |
| `detector.py` | everything: geometry, exits, event indices, weights, Fresnel corrections, detection, redistribution, calc_refl_trans, run_sphere_fresnel_traj, goniometer, TIR helpers, haze | plotting switches; re-run trajectories are arguments (draws) |
| `detector_polarization_phase.py` | all three functions | |
| `event_distribution.py` | all computations | plotting, save_data, deprecated phase=True branch |
| `phase_func_sphere.py` | get_exit_pos, calc_pdf (phi-independent), calc_d_avg, calc_mu_scat_abs, calc_scat_bulk, size_distribution, calc_diam_list, sample_diams, sample_concentration, sample_angles_step_poly, conv_circ, calc_directions | plotting, phi-dependent calc_pdf (calls pdf(nu, phi_range), a TypeError); kernel density estimates are arguments |
| `refractive_index.py` | every material formula, n (lookup), n_cargille, n_eff (Maxwell Garnett and Bruggeman) | file reading; spline kinds other than linear |
| `structure.py` | factor_py, factor_para, factor_poly, factor_data, the direct correlation function, radial_dist_py and its transforms, field_phase_py, phase_factor | the spline between grid points (argument), field_phase_data (the same interpolation as factor_data on a file) |
