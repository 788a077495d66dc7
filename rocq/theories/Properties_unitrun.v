(** The whole calculation in another unit of length, C148. *)
From Coq Require Import Lra Lia Psatz.
From Verif Require Import Num Spec Spec_scatter Spec_optics Spec_reflection Spec_absorbing Spec_scat Spec_scat_cplx Spec_meta
  Spec_detector Spec_events Spec_unitrun L_num L_scat L_scat_cplx L_unitrun L_unitrun2
  M_init M_montecarlo M_detector M_structure M_refractive_index M_reflection M_absorbing M_scat M_scat_cplx M_simulation M_workflow
  Properties_scat Properties_scat_cplx Properties_simulation Properties_workflow Properties_workflow2.
From Coquelicot Require Import Complex.
Open Scope R_scope.

(** C148.  calc_scat for the same sample with every length multiplied by [l] -
    real or complex indices, one kind of particles, two, layered or
    polydisperse, any structure factor, with or without a rough surface -
    returns the same phase function, and coefficients divided by [l]. *)
Theorem C148_calc_scat : forall factorial ang mie integ I n l,
  scat_ok_c factorial I n -> surroundings_c I n -> narrow_sizes I -> 0 < l -> integrates_area l integ ->
  calc_scat_any factorial ang mie integ (in_unit l I)
  = coefficients_in_unit l (calc_scat_any factorial ang mie integ I).
Proof.
  intros factorial ang mie integ I n l (H1 & H2 & H3 & H4 & H5 & H6 & H7 & H8 & H9 & H10 & H11) Hs Hw Hl Hi.
  now apply (calc_scat_in l Hl I) with n.
Qed.
Print Assumptions C148_calc_scat.

(** C148.  So the whole calculation for a film, from the description of the
    sample to reflectance, transmittance and everything else returned, gives the
    same answer - or the same error - in any unit of length. *)
Theorem C148_film : forall factorial ang mie integ I n l nevents ntraj spot tmin tmax pmin pmax P D u_phi u_theta,
  scat_ok_c factorial I n -> surroundings_c I n -> narrow_sizes I -> 0 < l -> integrates_area l integ ->
  p_boundary P = film -> p_zlow P < p_thickness P -> p_run P = false -> p_gonio P = None ->
  (forall o, calc_scat_any factorial ang mie integ I = Ok o -> o_mu o <> Some 0) ->
  film_workflow_any factorial ang mie integ (in_unit l I) nevents ntraj (l * spot) tmin tmax pmin pmax
    (rescaled_params l P) D u_phi u_theta
  = film_workflow_any factorial ang mie integ I nevents ntraj spot tmin tmax pmin pmax P D u_phi u_theta.
Proof.
  intros factorial ang mie integ I n l nevents ntraj spot tmin tmax pmin pmax P D up ut SO SU Hw Hl Hi Hb Hz Hr Hg Hm.
  unfold film_workflow_any, workflow_any. rewrite (C148_calc_scat factorial ang mie integ I n l) by assumption.
  destruct (calc_scat_any factorial ang mie integ I) as [o|e]; cbn [coefficients_in_unit bind]; [|reflexivity].
  unfold after_scat. cbn [o_p o_mu o_muabs]. destruct (get_all (o_p o)) as [p|]; [|reflexivity].
  change (s_min (in_unit l I)) with (s_min I).
  destruct (sample_angles_1d nevents ntraj p (s_min I) up ut) as [rows|e]; cbn [bind]; [|reflexivity].
  specialize (Hm o eq_refl). destruct (o_mu o) as [mu|]; [|reflexivity]. cbn [nmap option_map].
  change (set_muabs (rescaled_params l P) (o_muabs o / l)) with (rescaled_params l (set_muabs P (o_muabs o))).
  apply film_run_units; try assumption. congruence.
Qed.
Print Assumptions C148_film.

(** A cross section 1/|k|^2 is an area; the dyed sample of C146 in nanometres
    instead of micrometres. *)
Definition area_integ (k : C) (par perp : list R) (d : R) (angles : list R) (lo hi : R) : R * R * R :=
  (/ (Cmod k ^ 2), 0, 0).
Lemma area_integ_ok l : 0 < l -> integrates_area l area_integ.
Proof.
  intros Hl k par perp d a lo hi. cbn [area_integ fst]. rewrite Cmod_mult.
  replace (Cmod (RtoC (/ l))) with (/ l).
  - rewrite Rpow_mult_distr, Rinv_mult, pow_inv, Rinv_inv. reflexivity.
  - rewrite Cmod_R. symmetry. apply Rabs_pos_eq. left. now apply Rinv_0_lt_compat.
Qed.
Example C148_case :
  film_workflow_any (fun _ => 1) isotropic flat_mie area_integ (in_unit 1000 dyed_dilute) 300 100 (1000 * 1) 0 (PI / 4) 0 (2 * PI)
    (rescaled_params 1000 film_call) half_draws (fun _ _ => 1 / 2) (fun _ _ => 1 / 3)
  = film_workflow_any (fun _ => 1) isotropic flat_mie area_integ dyed_dilute 300 100 1 0 (PI / 4) 0 (2 * PI)
    film_call half_draws (fun _ _ => 1 / 2) (fun _ _ => 1 / 3).
Proof.
  destruct dyed_dilute_ok as [S1 S2].
  apply C148_film with (n := (1.2, 0.01)); try assumption; try reflexivity; try (cbn; lra).
  - intros p0 p1 E. discriminate.
  - apply area_integ_ok. lra.
  - intros o Eo Eo0.
    destruct (C126_coefficients (fun _ => 1) isotropic flat_mie area_integ dyed_dilute (1.2, 0.01) S1 S2)
      as (o' & P0 & S0 & xe & rho & m & Eo' & Em & _ & Hr & _ & Emu & Hm0 & Hav & _).
    { cbn. lra. } { cbn. lra. } { intros. cbn. lra. }
    { intros k par perp d a lo hi _ _ _. cbn [area_integ fst]. split.
      - destruct (Req_dec (Cmod k) 0) as [E|E].
        + rewrite E. replace (0 ^ 2) with 0 by ring. rewrite Rinv_0. lra.
        + left. apply Rinv_0_lt_compat. assert (0 <= Cmod k) by apply Cmod_ge_0. apply pow_lt. lra.
      - cbn. lra. }
    rewrite Eo in Eo'. injection Eo' as <-. rewrite Emu in Eo0. injection Eo0 as E0.
    cbn [dyed_dilute surface_average form_used s_poly s_form String.eqb Ascii.eqb Bool.eqb] in Hav.
    destruct Hav as (r & _ & Em1). cbn [area_integ fst] in Em1.
    assert (K : 0 < Cmod (scat_k dyed_dilute (1.2, 0.01))).
    { apply Cmod_gt_0. unfold scat_k. cbn [dyed_dilute s_wavelen]. pose proof PI2_3_2. intros E. apply (f_equal fst) in E. cbn in E. lra. }
    assert (M : 0 < m) by (rewrite Em1; apply Rinv_0_lt_compat, pow_lt; exact K). nra.
Qed.

(** The hypotheses of C148_calc_scat also admit a binary polydisperse sample
    with a polydisperse structure factor and a rough surface. *)
Definition poly_dilute : scat_in :=
  mk_sin [0.1] [RtoC 1.5] (1.2, 0.01) 0.5 0.5 (Some [0.15]) (Some (0.4, 0.6)) (Some (0.1, 0.2)) true 0.01 0.1 3
    (S_name "glass") (Some "sphere"%string) None (Some (1.2, 0.01)) true true.
Example C148_poly_case : forall l, 0 < l ->
  calc_scat_any (fun _ => 1) isotropic flat_mie area_integ (in_unit l poly_dilute)
  = coefficients_in_unit l (calc_scat_any (fun _ => 1) isotropic flat_mie area_integ poly_dilute).
Proof.
  intros l Hl. pose proof PI2_3_2.
  assert (W1 : width 0.1 <= 1 / 3) by (unfold width, Rmax; destruct (Rle_dec _ _); lra).
  assert (W2 : width 0.2 <= 1 / 3) by (unfold width, Rmax; destruct (Rle_dec _ _); lra).
  apply C148_calc_scat with (n := (1.2, 0.01)); try assumption; [|reflexivity| |now apply area_integ_ok].
  - unfold scat_ok_c, poly_dilute; cbn [s_radius s_radius2 s_conc s_wavelen s_vf s_min s_poly s_pdi s_np s_sdata].
    split; [discriminate|]. split; [constructor; [lra|constructor]|].
    split; [intros r2 E; injection E as <-; split; [discriminate|constructor; [lra|constructor]]|].
    split; [intros c0 c1 E; injection E as <- <-; lra|].
    split; [intros E; apply (f_equal fst) in E; cbn in E; lra|]. split; [lra|]. split; [lra|]. split; [split; lra|].
    split; [intros _; split; [discriminate|reflexivity]|].
    split; [|cbn; right; right; right; split; [reflexivity|split; [reflexivity|discriminate]]].
    right; right. split; [reflexivity|]. split; [reflexivity|]. cbn. eexists _, _, _. split; [reflexivity|].
    intros s [<-|[<-|[]]]; unfold species_ok; cbn [sp_c sp_d sp_pdi]; repeat split; try lra.
  - intros p0 p1 E. cbn in E. injection E as <- <-. cbn. split; [exact W1|]. split; [exact W2|lra].
Qed.
