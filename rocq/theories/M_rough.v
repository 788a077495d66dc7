(** Model of a Monte Carlo run on a film with a coarse (tilted-facet) surface:
    the facet angles [coarse_roughness_enter] draws, [initialize] with
    coarse_roughness, and the call of [calc_refl_trans] with the kz0_rot and
    kz0_refl it returns.  No proofs in this file. *)
From Verif Require Import Num Spec M_init M_montecarlo M_detector M_scat M_fields M_simulation.
Open Scope R_scope.

(** structcol/montecarlo.py:1473-1487: 500 facet angles from 0 to pi/2 with
    weights P_theta_a.  At the last one numpy's cosine is 6e-17, and exp
    underflows: the weight is 0.  The angles are drawn with one [rng.choice]
    per trajectory ([u]); coarse_roughness = 0 makes every weight NaN, then all
    facets are flat. *)
Definition facet_angles : list R := linspace 0 (PI / 2) 500.
Definition facet_weight (r : R) (i : nat) : R :=
  if Nat.eqb i 499 then 0 else P_theta_a (nth i facet_angles 0) r.
Definition sample_facets (r : R) (ntraj : nat) (u : nat -> R) : result (list R) :=
  if Reqb r 0 then Ok (repeat 0 ntraj)
  else mapM (fun i => bind (choice (M_montecarlo.normalise (map (facet_weight r) (seq 0 500))) (u i))
                           (fun j => Ok (nth j facet_angles 0))) (seq 0 ntraj).

(** structcol/montecarlo.py:668-705, 785-803: [initialize(boundary='film',
    coarse_roughness=r)], r <> 0: what it returns for each trajectory, then
    kz0_rot and kz0_refl.  Incidence angles as in [initialize_film]. *)
Definition rough_launch (nevents ntraj : nat) (spot : R) (tmin tmax pmin pmax n_medium n_sample r : R)
  (ux uy ut up uf : nat -> R) : result (list start * list R * list R) :=
  let theta i := uniform tmin tmax (ut i) in
  let phi i := uniform pmin pmax (up i) in
  let k0 i := (sin (theta i) * cos (phi i), sin (theta i) * sin (phi i), cos (theta i)) in
  bind (sample_facets r ntraj uf) (fun facets =>
  bind (coarse_roughness_enter film (map k0 (seq 0 ntraj)) facets n_medium n_sample) (fun rough =>
  Ok (map2 (fun i x => ((ux i * spot, uy i * spot, 0), fst (fst x), repeat 1 nevents)) (seq 0 ntraj) rough,
      map (fun x => snd (fst x)) rough, map (fun x => vz (snd x)) rough))).

Definition with_rough (P : params) (kz0_rot kz0_refl : list R) : params :=
  mk_params (p_thickness P) (p_nmedium P) (p_nsample P) (p_boundary P) (p_zlow P) (p_detection P) (p_nfront P)
    (p_nback P) (p_run P) (p_maxdepth P) (p_maxstuck P) (p_muabs P) (p_gonio P) (Some kz0_rot) (Some kz0_refl)
    (p_fine P) (p_nparticle P) (p_nmatrix P).

(** A run on a film with coarse roughness [r]. *)
Definition rough_film_run (nevents ntraj : nat) (spot tmin tmax pmin pmax mu_scat r : R)
  (P : params) (D : draws) (uf : nat -> R) : result (option outcome) :=
  bind (rough_launch nevents ntraj spot tmin tmax pmin pmax (p_nmedium P) (p_nsample P) r
          (d_l0 D) (d_l1 D) (d_l2 D) (d_l3 D) uf) (fun x =>
  let '(starts, kz0_rot, kz0_refl) := x in
  bind (trajectories nevents ntraj mu_scat (p_muabs P) D starts) (fun ts =>
  match ts with
  | None => Ok None
  | Some trs => calc_refl_trans 22 (d_rang D) (d_rstep D) (with_rough P kz0_rot kz0_refl) false 0 trs
  end)).
