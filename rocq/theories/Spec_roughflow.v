(** Vocabulary for the whole calculation of a rough film: C149. *)
From Verif Require Import Num M_structure M_reflection M_absorbing M_scat M_scat_cplx Spec_scat Spec_scat_cplx.
From Coquelicot Require Import Complex.
Open Scope R_scope.

(** Scattering by the sample in direction [t] (two polarisations): Mie theory
    for real or for complex surroundings. *)
Definition sample_dcs factorial ang mie (I : scat_in) (n : C) x_eff (t : R) : result (num * num) :=
  if Reqb (snd n) 0 then scat_dcs factorial ang I (form_used I) (structure_used I) (fst n) x_eff t
  else scat_cdcs factorial mie I (form_used I) (structure_used I) n x_eff t.

(** Some light is scattered other than exactly backwards. *)
Definition scatters factorial ang mie (I : scat_in) (n : C) : Prop :=
  exists x_eff t p s, scat_medium I = Ok (n, x_eff) /\ In t (scat_grid I) /\ t < PI
    /\ sample_dcs factorial ang mie I n x_eff t = Ok (Some p, Some s) /\ 0 < p + s.

(** A medium: not empty space of index 0, no gain. *)
Definition medium (n : C) : Prop := 0 < fst n /\ 0 <= snd n.

(** The same sample with fine roughness [f]. *)
Definition with_fine (f : R) (I : scat_in) : scat_in :=
  mk_sin (s_radius I) (s_np I) (s_nsample I) (s_vf I) (s_wavelen I) (s_radius2 I) (s_conc I) (s_pdi I) (s_poly I) f
    (s_min I) (s_num I) (s_structure I) (s_form I) (s_sdata I) (s_nmatrix I) (s_emstruct I) (s_emform I).
