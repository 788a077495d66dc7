(** The whole calculation for absorbing samples, C146. *)
From Coq Require Import Lra Lia Psatz.
From Verif Require Import Num Spec Spec_scatter Spec_optics Spec_reflection Spec_absorbing Spec_scat Spec_scat_cplx
  Spec_detector Spec_events
  L_num L_trapezoid L_montecarlo2 L_reflection L_reflection2 L_sizes L_sampling L_scat L_scat_cplx L_draws L_simulation
  M_init M_montecarlo M_detector M_structure M_refractive_index M_reflection M_absorbing M_scat M_scat_cplx M_simulation M_workflow
  Properties_scat Properties_scat_cplx Properties_simulation Properties_workflow.
From Coquelicot Require Import Complex.
Open Scope R_scope.

Lemma workflow_any_reduces run factorial ang mie integ I n nevents ntraj P D up ut :
  scat_ok_c factorial I n -> surroundings_c I n -> 0 < snd n -> s_fine I <= 0 ->
  (forall m y t a, 0 <= fst (mie m y t a) /\ 0 <= snd (mie m y t a)) -> (forall k, nonneg_integrator (integ k)) ->
  (forall e i, 0 <= up e i < 1 /\ 0 <= ut e i < 1) ->
  exists o (Pc Sc : R -> R) x_eff mu, calc_scat_any factorial ang mie integ I = Ok o
    /\ scat_medium I = Ok (n, x_eff)
    /\ (forall t, In t (scat_grid I) ->
          scat_cdcs factorial mie I (form_used I) (structure_used I) n x_eff t = Ok (Some (Pc t), Some (Sc t)))
    /\ o_mu o = Some mu /\ 0 <= mu /\ o_muabs o = 4 * PI * snd n / s_wavelen I /\ 0 < o_muabs o
    /\ ((exists t, In t (scat_grid I) /\ t < PI /\ 0 < Pc t + Sc t) ->
        exists rows, workflow_any run factorial ang mie integ I nevents ntraj P D up ut
                     = run mu (set_muabs P (o_muabs o)) (set_angles D rows)).
Proof.
  intros SO SU Hn Hf Ha Hi Hu. pose proof PI_RGT_0 as HP.
  destruct (C126_coefficients factorial ang mie integ I n SO SU ltac:(lra) Hf Ha Hi)
    as (o & P0 & S0 & xe & rho & mu & Eo & Em & _ & Hr & HPS & Emu & Hmu & _ & _ & Eabs & _).
  destruct (C129_angles_of_phase_function factorial ang mie integ I n nevents ntraj up ut SO SU ltac:(lra) Hf Ha Hu)
    as (o' & P1 & S1 & xe' & Eo' & Em' & HPS' & H).
  rewrite Eo in Eo'. injection Eo' as <-. rewrite Em in Em'. injection Em' as <-.
  exists o, P1, S1, xe, (rho * mu). split; [exact Eo|]. split; [exact Em|]. split; [exact HPS'|]. split; [exact Emu|].
  split; [apply Rmult_le_pos; lra|]. split; [exact Eabs|].
  split; [rewrite Eabs; destruct SO as (_ & _ & _ & _ & _ & Hw & _); apply Rdiv_lt_0_compat; [nra|exact Hw]|].
  intros Hex. destruct (H Hex) as (q & l & Eq & El & _).
  exists l. unfold workflow_any. rewrite Eo. cbn [bind]. unfold after_scat. rewrite Eq, get_all_some, El. cbn [bind].
  now rewrite Emu.
Qed.

(** C146.  Take any absorbing film whose description calc_scat accepts ([n] is
    the complex index it works with), at an index not below that of the medium.
    Then calc_scat returns a non-negative scattering coefficient and the
    absorption coefficient 4 pi Im(n) / wavelength.  If the scattering
    coefficient is positive and some light is scattered other than exactly
    backwards, the whole calculation, whatever the random draws, does not raise
    and the reflectance and transmittance, if numbers, are fractions that add
    up to no more than 1. *)
Theorem C146_film : forall factorial ang mie integ I n nevents ntraj spot tmin tmax pmin pmax P D u_phi u_theta,
  scat_ok_c factorial I n -> surroundings_c I n -> 0 < snd n -> s_fine I <= 0 ->
  (forall m y t a, 0 <= fst (mie m y t a) /\ 0 <= snd (mie m y t a)) -> (forall k, nonneg_integrator (integ k)) ->
  (forall e i, 0 <= u_phi e i < 1 /\ 0 <= u_theta e i < 1) ->
  (0 < nevents)%nat -> (0 < ntraj)%nat -> 0 < spot ->
  in01 (d_l0 D) -> in01 (d_l1 D) -> (forall n i, 0 <= d_u D n i < 1) ->
  valid_params P ntraj -> 0 < p_nmedium P <= p_nsample P ->
  p_kz0rot P = None -> p_kz0refl P = None -> p_boundary P = film -> p_run P = false ->
  exists o (Pc Sc : R -> R) x_eff mu, calc_scat_any factorial ang mie integ I = Ok o
    /\ scat_medium I = Ok (n, x_eff)
    /\ (forall t, In t (scat_grid I) ->
          scat_cdcs factorial mie I (form_used I) (structure_used I) n x_eff t = Ok (Some (Pc t), Some (Sc t)))
    /\ o_mu o = Some mu /\ 0 <= mu /\ o_muabs o = 4 * PI * snd n / s_wavelen I
    /\ (0 < mu -> (exists t, In t (scat_grid I) /\ t < PI /\ 0 < Pc t + Sc t) -> exists oo,
          film_workflow_any factorial ang mie integ I nevents ntraj spot tmin tmax pmin pmax P D u_phi u_theta = Ok oo
          /\ forall r, oo = Some r -> 0 <= o_refl r /\ 0 <= o_trans r /\ o_refl r + o_trans r <= 1).
Proof.
  intros factorial ang mie integ I n nevents ntraj spot tmin tmax pmin pmax P D up ut SO SU Hn0 Hf Ha Hi Hu Hn Ht Hs H0 H1 Hd Hv Hm K1 K2 Hb Hr.
  destruct (workflow_any_reduces (film_run nevents ntraj spot tmin tmax pmin pmax) factorial ang mie integ I n nevents ntraj P D up ut
    SO SU Hn0 Hf Ha Hi Hu) as (o & Pc & Sc & xe & mu & Eo & Em & HPS & Emu & Hmu & Eabs & Habs & H).
  exists o, Pc, Sc, xe, mu. do 6 (split; [assumption|]). intros Hpos Hex.
  destruct (H Hex) as (rows & E). unfold film_workflow_any. rewrite E.
  destruct (C103_film_run nevents ntraj spot tmin tmax pmin pmax mu (set_muabs P (o_muabs o)) (set_angles D rows)) as (oo & Eoo & Q);
    try assumption; try (cbn; lra).
  exists oo. split; [exact Eoo|]. intros r Er. destruct (Q r Er) as (A1 & A2 & A3 & _). auto.
Qed.
Print Assumptions C146_film.

(** The same for a sphere, with re-runs; there the results are always numbers. *)
Theorem C146_sphere : forall factorial ang mie integ I n nevents ntraj spot P D u_phi u_theta,
  scat_ok_c factorial I n -> surroundings_c I n -> 0 < snd n -> s_fine I <= 0 ->
  (forall m y t a, 0 <= fst (mie m y t a) /\ 0 <= snd (mie m y t a)) -> (forall k, nonneg_integrator (integ k)) ->
  (forall e i, 0 <= u_phi e i < 1 /\ 0 <= u_theta e i < 1) ->
  (0 < nevents)%nat -> (0 < ntraj)%nat -> 0 < p_thickness P -> 0 < spot <= p_thickness P ->
  (forall i, 0 < d_l0 D i < 1) -> (forall n i, 0 <= d_u D n i < 1) -> (forall d i n, 0 <= d_rstep D d i n) ->
  valid_params P ntraj -> plain P -> 0 < p_nmedium P <= p_nsample P -> p_boundary P = sphere ->
  exists o (Pc Sc : R -> R) x_eff mu, calc_scat_any factorial ang mie integ I = Ok o
    /\ scat_medium I = Ok (n, x_eff)
    /\ (forall t, In t (scat_grid I) ->
          scat_cdcs factorial mie I (form_used I) (structure_used I) n x_eff t = Ok (Some (Pc t), Some (Sc t)))
    /\ o_mu o = Some mu /\ 0 <= mu /\ o_muabs o = 4 * PI * snd n / s_wavelen I
    /\ (0 < mu -> (exists t, In t (scat_grid I) /\ t < PI /\ 0 < Pc t + Sc t) -> exists r,
          sphere_workflow_any factorial ang mie integ I nevents ntraj spot P D u_phi u_theta = Ok (Some r)
          /\ 0 <= o_refl r /\ 0 <= o_trans r /\ o_refl r + o_trans r <= 1).
Proof.
  intros factorial ang mie integ I n nevents ntraj spot P D up ut SO SU Hn0 Hf Ha Hi Hu Hn Ht Hth Hs H0 Hd Hst Hv Hpl Hm Hb.
  destruct (workflow_any_reduces (sphere_run nevents ntraj spot) factorial ang mie integ I n nevents ntraj P D up ut
    SO SU Hn0 Hf Ha Hi Hu) as (o & Pc & Sc & xe & mu & Eo & Em & HPS & Emu & Hmu & Eabs & Habs & H).
  exists o, Pc, Sc, xe, mu. do 6 (split; [assumption|]). intros Hpos Hex.
  destruct (H Hex) as (rows & E). unfold sphere_workflow_any. rewrite E.
  destruct (C103_sphere_run nevents ntraj spot mu (set_muabs P (o_muabs o)) (set_angles D rows)) as (r & Er & A1 & A2 & A3 & _);
    try assumption; try (cbn; lra).
  exists r. auto.
Qed.
Print Assumptions C146_sphere.

(** A dyed sample of isotropic scatterers: a run of 300 events for 100
    trajectories meets all hypotheses. *)
Definition dyed_dilute : scat_in :=
  mk_sin [0.1] [RtoC 1.5] (1.2, 0.01) 0.5 0.5 None None None false 0 0.1 3 S_none
    (Some "sphere"%string) None (Some (1.2, 0.01)) true true.
Lemma dyed_dilute_ok : scat_ok_c (fun _ => 1) dyed_dilute (1.2, 0.01) /\ surroundings_c dyed_dilute (1.2, 0.01).
Proof.
  pose proof PI2_3_2. unfold scat_ok_c, surroundings_c, dyed_dilute; cbn. split; [|reflexivity].
  split; [discriminate|]. split; [constructor; [lra|constructor]|]. split; [discriminate|]. split; [discriminate|].
  split; [intros E; apply (f_equal fst) in E; cbn in E; lra|]. split; [lra|]. split; [lra|]. split; [split; lra|]. split; [discriminate|].
  split; [right; left; reflexivity|exact Logic.I].
Qed.
Definition flat_mie (m x : list C) (t : R) (kd : C) : R * R := (1, 1).
Definition flat_integ (k : C) (par perp : list R) (d : R) (angles : list R) (lo hi : R) : R * R * R := (1, 1, 1).

Example C146_case : exists oo,
  film_workflow_any (fun _ => 1) isotropic flat_mie flat_integ dyed_dilute 300 100 1 0 (PI / 4) 0 (2 * PI) film_call half_draws
    (fun _ _ => 1 / 2) (fun _ _ => 1 / 3) = Ok oo
  /\ forall r, oo = Some r -> o_refl r + o_trans r <= 1.
Proof.
  destruct dyed_dilute_ok as [S1 S2]. pose proof PI2_3_2 as HP.
  destruct (C126_coefficients (fun _ => 1) isotropic flat_mie flat_integ dyed_dilute (1.2, 0.01) S1 S2)
    as (o & P0 & S0 & xe & rho & m & Eo & Em & _ & Hr & _ & Emu & Hm0 & Hav & _).
  { cbn. lra. } { cbn. lra. } { intros. cbn. lra. } { intros k par perp d a lo hi _ _ _. cbn. lra. }
  assert (Em1 : m = 1) by (cbn in Hav; now destruct Hav as (r & _ & ->)).
  destruct (C146_film (fun _ => 1) isotropic flat_mie flat_integ dyed_dilute (1.2, 0.01) 300 100 1 0 (PI / 4) 0 (2 * PI) film_call half_draws
    (fun _ _ => 1 / 2) (fun _ _ => 1 / 3)) as (o' & P1 & S2' & xe' & mu & Eo' & Em' & HPS & Emu' & _ & _ & H);
    try reflexivity; try assumption; try (cbn; lra); try lia.
  - intros. cbn. lra.
  - intros k par perp d a lo hi _ _ _. cbn. lra.
  - intros. lra.
  - intros i. cbn. lra.
  - intros i. cbn. lra.
  - intros k i. apply mod2_half.
  - unfold valid_params, film_call; cbn. repeat split; try lra; discriminate.
  - rewrite Eo in Eo'. injection Eo' as <-. rewrite Emu in Emu'. injection Emu' as <-.
    destruct H as (oo & Eoo & Q).
    + rewrite Em1. lra.
    + assert (Hin : In 0.1 (scat_grid dyed_dilute)).
      { unfold scat_grid, linspace, dyed_dilute. cbn. left. lra. }
      exists 0.1. split; [exact Hin|]. split; [lra|].
      specialize (HPS _ Hin). cbn in HPS. injection HPS as <- <-. lra.
    + exists oo. split; [exact Eoo|]. intros r Er. apply (Q r Er).
Qed.
