(** Vocabulary for the properties of absorbing samples. *)
From Verif Require Import Num M_reflection Spec_reflection.
From Coquelicot Require Import Complex.
Open Scope R_scope.

(** Fresnel's normal-incidence reflectance |(n1-n2)/(n1+n2)|^2, from an index n1
    into a complex index n2; it is the same for both polarisations. *)
Definition normal_true (n1 : R) (n2 : C) : R :=
  ((n1 - fst n2) ^ 2 + snd n2 ^ 2) / ((n1 + fst n2) ^ 2 + snd n2 ^ 2).

(** Sum over the surfaces of integration, each weighted. *)
Definition weighted (parts : list (R * R)) (f : R -> R) : R :=
  Rsum (map (fun p => fst p * f (snd p)) parts).

(** An integrator of intensities: non-negative intensities give non-negative
    cross sections.  The three results are the unpolarised, the parallel and
    the perpendicular cross section. *)
Definition nonneg_integrator (integ : list R -> list R -> R -> list R -> R -> R -> R * R * R) : Prop :=
  forall par perp d angles lo hi, Forall (fun x => 0 <= x) par -> Forall (fun x => 0 <= x) perp -> lo <= hi ->
    0 <= fst (fst (integ par perp d angles lo hi))
    /\ 0 <= snd (fst (integ par perp d angles lo hi)) /\ 0 <= snd (integ par perp d angles lo hi).

(** The same sample with another thickness. *)
Definition in_thickness (I : refl_in) (th : option R) : refl_in :=
  mk_rin (i_nparticle I) (i_nmatrix I) (i_nmedium I) (i_wavelen I) (i_radius I) (i_vf I) (i_radius2 I)
    (i_conc I) (i_pdi I) th (i_tmin I) (i_tmax I) (i_pmin I) (i_pmax I) (i_inc I) (i_num I) (i_small I)
    (i_structure I) (i_form I) (i_mg I) (i_sdata I) (i_emstruct I) (i_emform I).

(** The index of the particles' surroundings is [n], with some absorption. *)
Definition absorbing_sample (fsolve : (C -> C) -> C) (I : refl_in) (n : C) : Prop :=
  length (i_nparticle I) = length (i_radius I)
  /\ (exists ne, choose_sample
        (M_refractive_index.n_eff fsolve (i_mg I) (i_nparticle I) [i_nmatrix I] (vf_array (i_vf I) (i_radius I)))
        (i_nmatrix I) (i_emstruct I) (i_emform I) = Ok (n, ne))
  /\ 0 < fst n /\ 0 < snd n.

(** Total scattering cross section, and its cosine-weighted counterpart, of a sample
    whose differential cross sections are [P] and [S]. *)
Definition total_abs (integ : list R -> list R -> R -> list R -> R -> R -> R * R * R) parts A (P S : R -> R) : R :=
  weighted parts (fun d => fst (fst (integ (map P (total_angles A)) (map S (total_angles A)) d (total_angles A) 0 (2 * PI)))).
Definition cos_abs (integ : list R -> list R -> R -> list R -> R -> R -> R * R * R) parts A (P S : R -> R) : R :=
  weighted parts (fun d => fst (fst (integ (map (fun t => P t * cos t) (total_angles A))
     (map (fun t => S t * cos t) (total_angles A)) d (total_angles A) 0 (2 * PI)))).

(** The light scattered into the detector range, each direction [t] reduced by
    the transmissions [T] (parallel) and [U] (perpendicular) of the surface:
    parallel and perpendicular cross sections. *)
Definition detected_abs (integ : list R -> list R -> R -> list R -> R -> R -> R * R * R) parts A (P S T U : R -> R) : R * R :=
  let D := detected_angles A in
  let i d := integ (map (fun t => P t * T t) D) (map (fun t => S t * U t) D) d D (a_pmin A) (a_pmax A) in
  (weighted parts (fun d => snd (fst (i d))), weighted parts (fun d => snd (i d))).
