(** Model of the whole Monte Carlo calculation for a film with a rough surface,
    as in [calc_montecarlo] (structcol/tests/test_detector.py:570-634): fine
    roughness (a second scattering coefficient for the first step of some
    trajectories) and coarse roughness (tilted facets).  No proofs. *)
From Verif Require Import Num M_init M_scat M_montecarlo M_detector M_simulation M_rough M_absorbing M_scat_cplx M_workflow.
From Coquelicot Require Import Complex.
Open Scope R_scope.

(** structcol/tests/test_detector.py:598-632: [initialize] with coarse
    roughness [r] (flat if 0), [sample_step] with the coefficients [mu] and
    [mie] and the share [fine] (structcol/montecarlo.py:1349-1405; [um] are the
    draws of line 1402), the trajectories, [calc_refl_trans]. *)
Definition surface_film_run (nevents ntraj : nat) (spot tmin tmax pmin pmax mu : R) (mie : option R) (fine r : R)
  (P : params) (D : draws) (uf um : nat -> R) : result (option outcome) :=
  bind (if Reqb r 0 then
          bind (initialize_film nevents ntraj spot None None None tmin tmax pmin pmax
                  (p_nmedium P) (p_nsample P) (d_l0 D) (d_l1 D) (d_l2 D) (d_l3 D)) (fun s => Ok (s, P))
        else
          bind (rough_launch nevents ntraj spot tmin tmax pmin pmax (p_nmedium P) (p_nsample P) r
                  (d_l0 D) (d_l1 D) (d_l2 D) (d_l3 D) uf) (fun x =>
          let '(starts, kz0_rot, kz0_refl) := x in Ok (starts, with_rough P kz0_rot kz0_refl))) (fun sp =>
  bind (sample_step ntraj mu mie fine (uniform_rows nevents ntraj (d_u D)) um) (fun steps =>
  bind (run_trajs nevents (p_muabs P) (d_ang D) steps 0 (fst sp)) (fun ts =>
  match ts with
  | None => Ok None
  | Some trs => calc_refl_trans 22 (d_rang D) (d_rstep D) (snd sp) false 0 trs
  end))).

(** structcol/tests/test_detector.py:585-632, from the description of the sample
    ([s_fine] is the fine roughness handed to both [calc_scat] and
    [sample_step]).  NaN coefficients are not followed further ([Ok None]). *)
Definition surface_workflow (factorial : R -> R) (mie_ang : list C -> list R -> R -> R * R)
  (mie : list C -> list C -> R -> C -> R * R) (integ : C -> integrator) (I : scat_in)
  (nevents ntraj : nat) (spot tmin tmax pmin pmax r : R) (P : params) (D : draws) (uf um : nat -> R)
  (u_phi u_theta : nat -> nat -> R) : result (option outcome) :=
  bind (calc_scat_any factorial mie_ang mie integ I) (fun o =>
  match get_all (o_p o) with
  | None => Err ValueError
  | Some p =>
      bind (sample_angles_1d nevents ntraj p (s_min I) u_phi u_theta) (fun rows =>
      let run mu mm := surface_film_run nevents ntraj spot tmin tmax pmin pmax mu mm (s_fine I) r
                         (set_muabs P (o_muabs o)) (set_angles D rows) uf um in
      match o_mu o, o_mie o with
      | Some mu, None => run mu None
      | Some mu, Some (Some mm) => run mu (Some mm)
      | _, _ => Ok None end) end).
