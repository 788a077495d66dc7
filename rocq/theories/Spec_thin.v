(** Single scattering by a phase function, for C162. *)
From Coq Require Import Reals List.
From Verif Require Import Num Spec Spec_scat Spec_diffuse M_init M_montecarlo M_detector M_simulation M_scat.
Import ListNotations.
Open Scope R_scope.

(** The draws [D] with three random numbers of trajectory i replaced: its first
    scattering angles are those sample_angles draws from the phase function [p]
    with t (3 i) for the polar angle (the azimuth as in [D]), its first two
    steps are drawn from t (3 i + 1) and t (3 i + 2). *)
Definition with_first_scattering (p : list R) (lo : R) (t : nat -> R) (D : draws) : draws :=
  mk_draws (d_l0 D) (d_l1 D) (d_l2 D) (d_l3 D)
    (fun i n => match n with
                | O => (fst (match sample_angle_1d p lo 0 (t (3 * i)%nat) with Ok a => a | Err _ => (0, 0) end), snd (d_ang D i 0%nat))
                | _ => d_ang D i n
                end)
    (fun n i => match n with O => frac_part (t (3 * i + 1)%nat) | 1%nat => frac_part (t (3 * i + 2)%nat) | _ => d_u D n i end)
    (d_rang D) (d_rstep D).

(** The same call for a film of another thickness. *)
Definition with_thickness (d : R) (P : params) : params :=
  mk_params d (p_nmedium P) (p_nsample P) (p_boundary P) (p_zlow P) (p_detection P) (p_nfront P) (p_nback P)
    (p_run P) (p_maxdepth P) (p_maxstuck P) (p_muabs P) (p_gonio P) (p_kz0rot P) (p_kz0refl P) (p_fine P) (p_nparticle P) (p_nmatrix P).
