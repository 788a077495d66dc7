(** The same sample with all lengths given in another unit: C148. *)
From Verif Require Import Num M_montecarlo M_detector M_reflection M_absorbing M_scat M_scat_cplx Spec_reflection Spec_scat Spec_meta.
From Coquelicot Require Import Complex.
Open Scope R_scope.

(** Every length is [l] times as large. *)
Definition in_unit (l : R) (I : scat_in) : scat_in :=
  mk_sin (map (fun r => l * r) (s_radius I)) (s_np I) (s_nsample I) (s_vf I) (l * s_wavelen I)
    (option_map (map (fun r => l * r)) (s_radius2 I)) (s_conc I) (s_pdi I) (s_poly I) (s_fine I) (s_min I) (s_num I)
    (s_structure I) (s_form I) (s_sdata I) (s_nmatrix I) (s_emstruct I) (s_emform I).

(** Coefficients (inverse lengths) become smaller by [l]; the phase function
    stays. *)
Definition coefficients_in_unit (l : R) (r : result scat_out) : result scat_out :=
  match r with
  | Ok o => Ok (mk_sout (o_p o) (nmap (fun m => m / l) (o_mu o)) (option_map (nmap (fun m => m / l)) (o_mie o)) (o_muabs o / l))
  | Err e => Err e end.

(** What is required of the integrator of intensities at wavenumber k: an area,
    so [l]^2 times as large if lengths are [l] times as large. *)
Definition integrates_area (l : R) (integ : C -> integrator) : Prop :=
  forall k par perp d angles lo hi,
    fst (fst (integ (Cmult (RtoC (/ l)) k) par perp (l * d) angles lo hi))
    = l ^ 2 * fst (fst (integ k par perp d angles lo hi)).

(** Size distributions that do not reach below 0 (C86: else the code cuts them
    off at 1e-6 in the caller's unit), and room for the particles. *)
Definition narrow_sizes (I : scat_in) : Prop :=
  forall p0 p1, s_pdi I = Some (p0, p1) -> width p0 <= 1 / 3 /\ width p1 <= 1 / 3 /\ s_vf I < 1.
