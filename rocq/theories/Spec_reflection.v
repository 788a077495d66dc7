(** Vocabulary for the properties of the single-scattering reflectance:
    conditions on the arguments and the textbook cross sections. *)
From Verif Require Import Num Spec_scatter Spec_optics M_model M_structure M_refractive_index M_reflection.
From Coquelicot Require Import Complex.
Open Scope R_scope.

(** Positive indices, wavelength and density; a detector in the backward
    hemisphere with theta_min <= theta_max; incidence from the front. *)
Definition geometry_ok (A : refl_args) : Prop :=
  0 < a_nmedium A /\ 0 < a_nsample A /\ 0 < a_wavelen A /\ 0 < a_rho A /\ 0 <= a_cabs A
  /\ PI / 2 <= a_tmin A /\ a_tmin A <= a_tmax A /\ a_tmax A <= PI
  /\ a_pmin A <= a_pmax A /\ 0 <= a_inc A <= PI / 2 /\ 0 <= a_small A <= PI.
Definition nonneg_cs (P S : R -> R) : Prop :=
  forall t, 0 <= t <= PI -> 0 <= P t /\ 0 <= S t.
Definition wavenumber (A : refl_args) : R := 2 * PI * a_nsample A / a_wavelen A.
Definition azimuth (A : refl_args) : R := a_pmax A - a_pmin A.
Definition unpol (P S : R -> R) (t : R) : R := (P t + S t) / 2.
(** Scattering and extinction cross sections of unpolarised light. *)
Definition sigma_scat (A : refl_args) (P S : R -> R) : R :=
  cross_sec (wavenumber A) (2 * PI) (total_angles A) (unpol P S).
Definition sigma_ext (A : refl_args) (P S : R -> R) : R := sigma_scat A P S + a_cabs A.

(** The same arguments with another thickness, detector range or azimuth range. *)
Definition with_thickness (A : refl_args) (th : option R) : refl_args :=
  mk_rargs (a_nmedium A) (a_nsample A) (a_wavelen A) (a_rho A) (a_cabs A) th (a_tmin A) (a_tmax A)
    (a_pmin A) (a_pmax A) (a_inc A) (a_num A) (a_small A).
Definition with_theta (A : refl_args) (lo hi : R) : refl_args :=
  mk_rargs (a_nmedium A) (a_nsample A) (a_wavelen A) (a_rho A) (a_cabs A) (a_thickness A) lo hi
    (a_pmin A) (a_pmax A) (a_inc A) (a_num A) (a_small A).
Definition with_phi (A : refl_args) (lo hi : R) : refl_args :=
  mk_rargs (a_nmedium A) (a_nsample A) (a_wavelen A) (a_rho A) (a_cabs A) (a_thickness A)
    (a_tmin A) (a_tmax A) lo hi (a_inc A) (a_num A) (a_small A).

(** The differential cross section function [dcs] gives, at every angle the
    calculation uses, finite non-negative values [P] (parallel) and [S]
    (perpendicular). *)
Definition gives (A : refl_args) (dcs : R -> result (num * num)) (P S : R -> R) : Prop :=
  forall t, In t (detected_angles A) \/ In t (total_angles A) ->
    dcs t = Ok (Some (P t), Some (S t)) /\ 0 <= P t /\ 0 <= S t.
Definition dcs_of (P S : R -> R) : R -> result (num * num) := fun t => Ok (Some (P t), Some (S t)).

(** The specular reflectances of the front surface. *)
Definition specular (A : refl_args) (rp rs : R) : Prop :=
  fresnel_reflection (a_nmedium A) (a_nsample A) [a_inc A] = Ok ([rp], [rs]).

(** The polydispersity used: at least 1e-5. *)
Definition width (pdi : R) : R := Rmax pdi 1e-5.

(** A species the polydisperse form factor can handle: polydispersity at most 1,
    and a mean diameter above the code's absolute floor of 1e-6 length units if
    the distribution would reach below 0. *)
Definition species_ok (factorial : R -> R) (s : species) : Prop :=
  0 <= sp_c s /\ 0 < sp_d s /\ width (sp_pdi s) <= 1 /\ (width (sp_pdi s) <= 1 / 3 \/ 1e-6 < sp_d s)
  /\ 0 < factorial (pdi_t (sp_pdi s)).

(** Arguments for which the form factor is defined. *)
Definition form_ok (factorial : R -> R) (nlayers : nat) (form_type : option string) (poly : poly_args) : Prop :=
  form_type = None \/ form_type = Some "sphere"%string
  \/ (form_type = Some "polydisperse"%string /\ nlayers = 1%nat
      /\ exists l w n, poly = Some (l, w, n) /\ forall s, In s l -> species_ok factorial s).
(** ... and the structure factor. *)
Definition structure_ok (nlayers : nat) (vf : R) (st : structure_type) (poly : poly_args)
  (sdata : option (list (R * R))) : Prop :=
  match st with
  | S_none => True
  | S_dict name sigma => name = "paracrystal"%string /\ exists s, sigma = Some s /\ 0 < s
  | S_name s =>
      (s = "glass"%string /\ 0 < vf < 1)
      \/ s = "paracrystal"%string
      \/ (s = "data"%string /\ exists t, sdata = Some t /\ Spec_optics.increasing t /\ (2 <= length t)%nat
                              /\ forall p, In p t -> 0 <= snd p)
      \/ (s = "polydisperse"%string /\ nlayers = 1%nat /\ poly <> None)
  | S_other => False end.

(** The index of the particles' surroundings ([n], real) and, if the structure
    factor uses another one, that index. *)
Definition sample_is (fsolve : (C -> C) -> C) (I : refl_in) (n : R) (ne : option C) : Prop :=
  choose_sample (n_eff fsolve (i_mg I) (i_nparticle I) [i_nmatrix I] (vf_array (i_vf I) (i_radius I)))
    (i_nmatrix I) (i_emstruct I) (i_emform I) = Ok (RtoC n, ne).

(** Reasonable arguments of [reflection] itself. *)
Definition inputs_ok (factorial : R -> R) (I : refl_in) (n : R) (ne : option C) : Prop :=
  length (i_nparticle I) = length (i_radius I)
  /\ i_radius I <> [] /\ Forall (fun r => 0 < r) (i_radius I)
  /\ (forall r2, i_radius2 I = Some r2 -> r2 <> [] /\ Forall (fun r => 0 < r) r2)
  /\ (forall c0 c1, i_conc I = Some (c0, c1) -> 0 <= c0 /\ 0 <= c1)
  /\ 0 < n /\ (forall z, ne = Some z -> z <> RtoC 0)
  /\ 0 < i_nmedium I /\ 0 < i_wavelen I /\ 0 < i_vf I
  /\ (forall L, i_thickness I = Some L -> 0 <= L)
  /\ PI / 2 <= i_tmin I /\ i_tmin I <= i_tmax I /\ i_tmax I <= PI /\ i_pmin I <= i_pmax I
  /\ 0 <= i_inc I <= PI / 2 /\ 0 < i_small I <= PI
  /\ form_ok factorial (length (i_nparticle I)) (i_form I) (refl_poly I n)
  /\ structure_ok (length (i_nparticle I)) (i_vf I) (i_structure I) (refl_poly I n) (i_sdata I).

