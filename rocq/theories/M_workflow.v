(** Model of the whole Monte Carlo calculation, from the description of the
    sample to the reflectance and transmittance: [calc_scat], [sample_angles],
    [sample_step], the trajectories, [calc_refl_trans]
    (structcol/tests/test_detector.py:570-634, tutorials).  No proofs. *)
From Verif Require Import Num M_init M_scat M_montecarlo M_detector M_simulation M_absorbing M_scat_cplx M_phase_func_sphere.
From Coquelicot Require Import Complex.
Open Scope R_scope.

(** The same arguments of [calc_refl_trans] and the same draws, with the
    absorption coefficient and the sampled angles filled in. *)
Definition set_muabs (P : params) (mu : R) : params :=
  mk_params (p_thickness P) (p_nmedium P) (p_nsample P) (p_boundary P) (p_zlow P) (p_detection P) (p_nfront P)
    (p_nback P) (p_run P) (p_maxdepth P) (p_maxstuck P) mu (p_gonio P) (p_kz0rot P) (p_kz0refl P)
    (p_fine P) (p_nparticle P) (p_nmatrix P).
Definition set_angles (D : draws) (rows : list (list (R * R))) : draws :=
  mk_draws (d_l0 D) (d_l1 D) (d_l2 D) (d_l3 D) (fun i n => nth i (nth n rows []) (0, 0)) (d_u D) (d_rang D) (d_rstep D).

(** [run mu P D] is the rest of the calculation once the scattering coefficient
    is known (structcol/montecarlo.py:833-1072, 1243-1346).  A NaN phase
    function makes numpy's choice raise ValueError; a NaN coefficient makes
    every step NaN. *)
Definition after_scat (run : R -> params -> draws -> result (option outcome)) (I : scat_in)
  (nevents ntraj : nat) (P : params) (D : draws) (u_phi u_theta : nat -> nat -> R) (o : scat_out)
  : result (option outcome) :=
  match get_all (o_p o) with
  | None => Err ValueError
  | Some p =>
      bind (sample_angles_1d nevents ntraj p (s_min I) u_phi u_theta) (fun rows =>
      match o_mu o with
      | None => Ok None
      | Some mu => run mu (set_muabs P (o_muabs o)) (set_angles D rows) end) end.
Definition workflow (run : R -> params -> draws -> result (option outcome))
  (factorial : R -> R) (mie_ang : list C -> list R -> R -> R * R)
  (special : C -> structure_type -> result (list num * num)) (I : scat_in)
  (nevents ntraj : nat) (P : params) (D : draws) (u_phi u_theta : nat -> nat -> R) : result (option outcome) :=
  bind (calc_scat factorial mie_ang special I) (after_scat run I nevents ntraj P D u_phi u_theta).

Definition film_workflow factorial mie_ang special I nevents ntraj spot tmin tmax pmin pmax :=
  workflow (film_run nevents ntraj spot tmin tmax pmin pmax) factorial mie_ang special I nevents ntraj.
Definition sphere_workflow factorial mie_ang special I nevents ntraj spot :=
  workflow (sphere_run nevents ntraj spot) factorial mie_ang special I nevents ntraj.

(** The same with [calc_scat] for all samples, absorbing ones included
    (structcol/montecarlo.py:1165-1240; [mie] and [integ] are pymie's). *)
Definition workflow_any (run : R -> params -> draws -> result (option outcome))
  (factorial : R -> R) (mie_ang : list C -> list R -> R -> R * R)
  (mie : list C -> list C -> R -> C -> R * R) (integ : C -> integrator) (I : scat_in)
  (nevents ntraj : nat) (P : params) (D : draws) (u_phi u_theta : nat -> nat -> R) : result (option outcome) :=
  bind (calc_scat_any factorial mie_ang mie integ I) (after_scat run I nevents ntraj P D u_phi u_theta).
Definition film_workflow_any factorial mie_ang mie integ I nevents ntraj spot tmin tmax pmin pmax :=
  workflow_any (film_run nevents ntraj spot tmin tmax pmin pmax) factorial mie_ang mie integ I nevents ntraj.
Definition sphere_workflow_any factorial mie_ang mie integ I nevents ntraj spot :=
  workflow_any (sphere_run nevents ntraj spot) factorial mie_ang mie integ I nevents ntraj.

(** A bulk film of structured spheres, from the result of
    [phase_func_sphere.calc_scat_bulk] for one sphere (phase function,
    scattering and absorption coefficient): [sample_angles] with its default
    smallest angle 0.01 (structcol/montecarlo.py:1243-1346), then the run on the
    film.  A phase function that is the number NaN has no length (TypeError,
    line 1277). *)
Definition bulk_film_run (nevents ntraj : nat) (spot tmin tmax pmin pmax : R) (P : params) (D : draws)
  (u_phi u_theta : nat -> nat -> R) (scat : option (list num) * R * R * list nat) : result (option outcome) :=
  let '(p, mu_scat, mu_abs, _) := scat in
  match p with
  | None => Err TypeError
  | Some l =>
      match get_all l with
      | None => Err ValueError
      | Some q =>
          bind (sample_angles_1d nevents ntraj q (1 / 100) u_phi u_theta) (fun rows =>
          film_run nevents ntraj spot tmin tmax pmin pmax mu_scat (set_muabs P mu_abs) (set_angles D rows))
      end
  end.
(** The two steps of the calculation: one sphere, then the film made of such
    spheres; [norm_refl] and [norm_trans] are the exit normals of the sphere's
    trajectories (structcol/detector.py, return_extra), [bw] the bandwidth. *)
Definition bulk_workflow bw (o : outcome) (norm_refl norm_trans : list vec) (volume_fraction diameter k wavelength : R)
  nevents ntraj spot tmin tmax pmin pmax P D u_phi u_theta : result (option outcome) :=
  bind (calc_scat_bulk bw (o_refl_per o) (o_trans_per o) (o_refl_i o) (o_trans_i o) norm_refl norm_trans
          volume_fraction diameter k wavelength None)
       (bulk_film_run nevents ntraj spot tmin tmax pmin pmax P D u_phi u_theta).
