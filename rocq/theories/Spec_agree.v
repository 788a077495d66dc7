(** The two calculations of the package on the same thin film, for C169. *)
From Coq Require Import Reals List.
From Verif Require Import Num Spec M_reflection M_scat.
Open Scope R_scope.

(** Arguments of the single-scattering model for a film of thickness [d] in a
    medium of its own index [n]: particles of number density [rho] that do not
    absorb, light along the normal, everything scattered backwards detected,
    [N] angles from [lo] to pi for the total cross section. *)
Definition matched_args (n wavelen rho lo d : R) (N : nat) : refl_args :=
  mk_rargs n n wavelen rho 0 (Some d) (PI / 2) PI 0 (2 * PI) 0 N lo.

(** The cross section, per particle and for unpolarised light, for scattering
    into the angles from [a] to pi: the integral of dsigma/dOmega = U/k^2 over the
    solid angle, if [integral] is the integral of U(theta) sin(theta) from [a]
    to pi. *)
Definition partial_section (n wavelen integral : R) : R :=
  2 * PI / (2 * PI * n / wavelen) ^ 2 * integral.

(** The same for whole samples: what [reflection] is called with for a film of
    thickness [d] with everything scattered backwards detected at normal
    incidence, and what [calc_scat] is called with, both with [N] angles. *)
Definition film_args (I : refl_in) (N : nat) (d : R) : refl_in :=
  mk_rin (i_nparticle I) (i_nmatrix I) (i_nmedium I) (i_wavelen I) (i_radius I) (i_vf I) (i_radius2 I) (i_conc I)
    (i_pdi I) (Some d) (PI / 2) PI 0 (2 * PI) 0 N (i_small I) (i_structure I) (i_form I) (i_mg I) (i_sdata I)
    (i_emstruct I) (i_emform I).
Definition angles_args (J : scat_in) (N : nat) : scat_in :=
  mk_sin (s_radius J) (s_np J) (s_nsample J) (s_vf J) (s_wavelen J) (s_radius2 J) (s_conc J) (s_pdi J) (s_poly J)
    (s_fine J) (s_min J) N (s_structure J) (s_form J) (s_sdata J) (s_nmatrix J) (s_emstruct J) (s_emform J).
