(** C152: whole calculations with electric fields on a film
    (structcol/tests/test_fields.py, tutorials/fields_montecarlo_tutorial.ipynb).
    Vocabulary in Spec_fields.v and Spec_polarization.v, model in M_fieldflow.v. *)
From Coq Require Import Lra Lia Psatz String.
From Verif Require Import Num Spec Spec_polarization Spec_fields Spec_detector Spec_scatter Spec_scat Spec_scat_cplx
  M_init M_montecarlo M_detector M_simulation M_scat M_scat_cplx M_workflow M_polarization M_fields M_fieldflow
  L_num L_montecarlo2 L_sizes L_scat_cplx L_fieldflow Properties_detector Properties_simulation Properties_scat_cplx Properties_workflow2.
From Coquelicot Require Import Complex.
Open Scope R_scope.

(** C152.  [ev i] is the event at which trajectory [i] is reflected (0: it is
    not), [r i] the reflectance of that trajectory handed to
    calc_refl_co_cross_fields.  Whatever the random draws, the amplitude
    matrix, the launch cone and the options, the calculation does not raise,
    its reflectance is that of the calculation without fields, every field
    column has one entry per event, the intensities and reflectances are
    non-negative, the coherent reflectance is at most the number of reflected
    trajectories times the incoherent one, and the incoherent one is at most
    the sum of the reflectances handed over, which is a fraction (at most the
    reflectance if the documented array is handed over); it is exactly that
    sum when the amplitudes S1, S2 do not vanish at the angles drawn.  With
    normal incidence every reflected field is perpendicular to the direction of
    its trajectory. *)
Theorem C152_fields_run : forall nevents ntraj spot tmin tmax pmin pmax mu_scat amp nk wavelen
    coherent polarized documented det_theta P D ux uy,
  (0 < nevents)%nat -> (0 < ntraj)%nat -> 0 < spot -> 0 < mu_scat -> 0 <= p_muabs P ->
  in01 (d_l0 D) -> in01 (d_l1 D) -> (forall n i, 0 <= d_u D n i < 1) ->
  valid_params P ntraj -> 0 < p_nmedium P <= p_nsample P ->
  p_kz0rot P = None -> p_kz0refl P = None -> p_boundary P = M_montecarlo.film -> p_run P = false ->
  exists oo, fields_run nevents ntraj spot tmin tmax pmin pmax mu_scat amp nk wavelen coherent polarized documented det_theta P D ux uy = Ok oo
    /\ film_run nevents ntraj spot tmin tmax pmin pmax mu_scat P D = Ok (option_map (fun r => snd (fst r)) oo)
    /\ forall trs fss o co cr perp coh inc, oo = Some (trs, fss, o, (co, cr, perp, coh, inc)) ->
       let ev i := nth i (o_refl_i o) 0%nat in
       let r i := nth i (handed documented o) 0 in
       let out i := nth (ev i) (nth i fss []) fzero in
       length trs = ntraj /\ length fss = ntraj
       /\ (forall i, (i < ntraj)%nat -> length (nth i fss []) = S nevents /\ (ev i <= nevents)%nat
             /\ strength (nth 0 (nth i fss []) fzero) = 1)
       /\ 0 <= co /\ 0 <= cr /\ 0 <= perp /\ co + cr + perp = INR ntraj * coh
       /\ 0 <= coh <= INR (reflected ntraj ev) * inc
       /\ 0 <= inc <= over_reflected ntraj ev r
       /\ over_reflected ntraj ev r <= 1
       /\ (documented = true -> over_reflected ntraj ev r <= o_refl o)
       /\ (documented = false -> over_reflected ntraj ev r = total (o_refl_pass o))
       /\ ((forall i n, let '(S1, S2, S3, S4) := amp (fst (d_ang D i n)) (snd (d_ang D i n)) in S1 <> RtoC 0 /\ S2 <> RtoC 0) ->
           inc = over_reflected ntraj ev r)
       /\ (tmin = 0 -> tmax = 0 -> forall i, (i < ntraj)%nat -> ev i <> 0%nat ->
           transverse (out i) (nth (ev i - 1) (t_dir (nth i trs (mk_traj [] [] []))) vzero)).
Proof. exact fields_run_ok. Qed.
Print Assumptions C152_fields_run.

Lemma get_rows_map q : get_rows (map (map Some) q) = Some q.
Proof. induction q as [|r q IH]; [reflexivity|]. cbn [map get_rows]. now rewrite get_all_some, IH. Qed.

(** The same from the description of the sample: calc_scat and sample_angles
    with fields=True first.  If the sample's extinction is not negative, the
    scattering coefficient calc_scat returns is positive and at every azimuth
    of its grid something is scattered other than exactly backwards. *)
Theorem C152_workflow : forall factorial mie integ poly_cart I nphi n u_phi u_theta nevents ntraj spot tmin tmax pmin pmax
    amp nk wavelen coherent polarized documented det_theta P D ux uy,
  scat_ok_c factorial I n -> surroundings_c I n -> 0 <= snd n -> s_fine I <= 0 -> form_used I <> Some "polydisperse"%string ->
  (forall m y t p a, 0 <= fst (mie m y t p a) /\ 0 <= snd (mie m y t p a)) -> (0 < nphi)%nat ->
  (forall e i, 0 <= u_phi e i < 1 /\ 0 <= u_theta e i < 1) ->
  (0 < nevents)%nat -> (0 < ntraj)%nat -> 0 < spot ->
  in01 (d_l0 D) -> in01 (d_l1 D) -> (forall n i, 0 <= d_u D n i < 1) ->
  valid_params P ntraj -> 0 < p_nmedium P <= p_nsample P ->
  p_kz0rot P = None -> p_kz0refl P = None -> p_boundary P = M_montecarlo.film -> p_run P = false ->
  exists s (Pc Sc : R -> R -> R) x_eff mu, calc_scat_fields factorial mie integ poly_cart I nphi = Ok s
    /\ scat_medium I = Ok (n, x_eff) /\ f_mu s = Some mu
    /\ (forall t p, In t (scat_grid I) ->
        scat_cdcs factorial (fun m x th a => mie m x th p a) I (form_used I) (structure_used I) n x_eff t
          = Ok (Some (Pc t p), Some (Sc t p)))
    /\ (0 < mu -> (forall p, In p (phi_grid I nphi) -> exists t, In t (scat_grid I) /\ t < PI /\ 0 < Pc t p + Sc t p) ->
        exists oo, fields_workflow factorial mie integ poly_cart I nphi u_phi u_theta nevents ntraj spot tmin tmax pmin pmax
                     amp nk wavelen coherent polarized documented det_theta P D ux uy = Ok oo
          /\ forall trs fss o co cr perp coh inc, oo = Some (trs, fss, o, (co, cr, perp, coh, inc)) ->
             0 <= co /\ 0 <= cr /\ 0 <= perp /\ co + cr + perp = INR ntraj * coh
             /\ 0 <= coh <= INR (reflected ntraj (fun i => nth i (o_refl_i o) 0%nat)) * inc
             /\ 0 <= inc <= 1 /\ (documented = true -> inc <= o_refl o)
             /\ (documented = false -> inc <= total (o_refl_pass o))).
Proof.
  intros factorial mie integ pc I nphi n up ut nev ntraj spot tmin tmax pmin pmax amp nk wl coh pol doc det P D ux uy
    SO SU Hn0 Hf Hnp Ha Hphi Hu Hn Ht Hs H0 H1 Hd Hv Hm K1 K2 Hb Hr.
  destruct (fields_ok factorial mie integ pc I nphi n SO SU Hf Hnp Ha)
    as (o & P0 & S0 & xe & rho & Eo & Em & _ & _ & _ & _ & Emu & _ & Eabs).
  destruct (C129_angles_of_fields factorial mie integ pc I nphi n nev ntraj up ut SO SU Hf Hnp Ha Hphi Hu)
    as (o' & P1 & S1 & xe' & Eo' & Em' & HPS & H).
  rewrite Eo in Eo'. injection Eo' as <-. rewrite Em in Em'. injection Em' as <-.
  eexists o, P1, S1, xe, _. split; [exact Eo|]. split; [exact Em|]. split; [exact Emu|]. split; [exact HPS|].
  intros Hmu Hex. destruct (H Hex) as (q & l & Eq & El & _).
  assert (Hma : 0 <= f_muabs o).
  { rewrite Eabs. pose proof PI_RGT_0. destruct SO as (_ & _ & _ & _ & _ & Hw & _).
    unfold Rdiv. apply Rmult_le_pos; [nra|]. left. now apply Rinv_0_lt_compat. }
  destruct (C152_fields_run nev ntraj spot tmin tmax pmin pmax _ amp nk wl coh pol doc det (set_muabs P (f_muabs o)) (set_angles D l) ux uy
      Hn Ht Hs Hmu Hma H0 H1 Hd Hv Hm K1 K2 Hb Hr) as (oo & Eoo & _ & Q).
  exists oo. split.
  - unfold fields_workflow. rewrite Eo. cbn [bind]. rewrite Eq, get_rows_map, El. cbn [bind]. rewrite Emu. exact Eoo.
  - intros trs fss r co cr perp ch inc E. destruct (Q _ _ _ _ _ _ _ _ E) as (_ & _ & _ & B1 & B2 & B3 & B4 & B5 & B6 & B7 & B8 & B9 & _).
    do 5 (split; [assumption|]). split; [lra|]. split; intros K; [specialize (B8 K)|specialize (B9 K)]; lra.
Qed.
Print Assumptions C152_workflow.

(** A run of one trajectory of two events, scattered straight back: it gives
    numbers, the trajectory is reflected at the second event, and the
    incoherent reflectance is what passes the surface. *)
Definition back_draws : draws :=
  mk_draws (fun _ => 0) (fun _ => 0) (fun _ => 1 / 2) (fun _ => 1 / 4) (fun _ _ => (PI, 0))
    (fun n _ => match n with 0%nat => 1 - exp (- (1 / 2)) | _ => 1 - exp (- (3 / 2)) end)
    (fun _ _ _ => (0, 0)) (fun _ _ _ => 0).

Lemma fuel_unused fuel fuel' angs steps P ft d trs : p_run P = false ->
  calc_refl_trans (S fuel) angs steps P ft d trs = calc_refl_trans (S fuel') angs steps P ft d trs.
Proof. intros Hr. cbn [calc_refl_trans]. rewrite Hr. reflexivity. Qed.

Lemma back_u n i : 0 <= d_u back_draws n i < 1.
Proof.
  assert (A : forall x, 0 < x -> 0 < exp (- x) < 1).
  { intros x Hx. split; [apply exp_pos|]. rewrite <- exp_0. apply exp_increasing. lra. }
  pose proof (A (1 / 2) ltac:(lra)). pose proof (A (3 / 2) ltac:(lra)). cbn. destruct n; lra.
Qed.

Example C152_case : exists trs fss o co cr perp coh inc,
  fields_run 2 1 1 0 0 0 0 1 (fun _ _ => (RtoC 1, RtoC 1, RtoC 0, RtoC 0)) 1.5 1 false false false 0 ex_film back_draws (fun _ => 1 / 3) (fun _ => 1 / 4)
    = Ok (Some (trs, fss, o, (co, cr, perp, coh, inc)))
  /\ nth 0 (o_refl_i o) 0%nat = 2%nat /\ inc = total (o_refl_pass o).
Proof.
  destruct (C152_fields_run 2 1 1 0 0 0 0 1 (fun _ _ => (RtoC 1, RtoC 1, RtoC 0, RtoC 0)) 1.5 1 false false false 0 ex_film back_draws (fun _ => 1 / 3) (fun _ => 1 / 4))
    as (oo & Eoo & Ef & H); try lia; try lra; try reflexivity; try (cbn; lra).
  { intros i. cbn. lra. } { intros i. cbn. lra. } { exact back_u. } { apply ex_film_valid. }
  assert (R0 : film_run 2 1 1 0 0 0 0 1 ex_film back_draws = calc_refl_trans 22 (fun _ _ _ => (0, 0)) (fun _ _ _ => 0) ex_film false 0 (map (fun _ => ex_traj) (seq 0 1))).
  { unfold film_run, initialize_film. cbv beta iota zeta. cbn [bind seq map].
    replace (uniform 0 0 (d_l2 back_draws 0)) with 0 by (unfold uniform; ring). rewrite entry_normal.
    unfold trajectories. rewrite L_montecarlo.sample_step_single by lra. cbn [bind].
    unfold run_trajs, run_traj. cbn [map uniform_rows seq nth Nat.sub repeat].
    assert (S0 : step_of 1 (d_u back_draws 0 0) = 1 / 2).
    { unfold step_of. cbn. replace (1 - (1 - exp (- (1 / 2)))) with (exp (- (1 / 2))) by ring. rewrite ln_exp. field. }
    assert (S1 : step_of 1 (d_u back_draws 1 0) = 3 / 2).
    { unfold step_of. cbn. replace (1 - (1 - exp (- (3 / 2)))) with (exp (- (3 / 2))) by ring. rewrite ln_exp. field. }
    rewrite S0, S1. unfold scatter. cbn [scatter_loop bind d_ang back_draws fst snd].
    match goal with |- calc_refl_trans _ _ _ _ _ _ [?t] = _ => assert (Et : t = ex_traj) end; [|now rewrite Et].
    unfold ex_traj, scatter1, ez. cbn [vx vy vz fst snd]. rewrite cos_PI, sin_PI, cos_0, sin_0.
    assert (K : forall a b c a' b' c' : R, a = a' -> b = b' -> c = c' -> (a, b, c) = (a', b', c')) by (intros; subst; reflexivity).
    f_equal.
    - unfold move, vadd, vscale, vzero. cbn [map2 map vcumsum_from vadd vscale vx vy vz fst snd d_l0 d_l1 back_draws].
      unfold vadd. cbn [vx vy vz fst snd].
      apply f_equal2; [apply K; field|]. apply f_equal2; [apply K; field|]. apply f_equal2; [apply K; field|reflexivity].
    - apply f_equal. apply f_equal2; [apply K; ring|reflexivity].
    - change (p_muabs ex_film) with 0. exact (L_montecarlo.absorb_zero [1; 1] [1 / 2; 3 / 2] eq_refl). }
  destruct ex_film_number as (o & Ho & _). rewrite (fuel_unused 0 21) in Ho by reflexivity.
  rewrite R0, Ho in Ef.
  destruct oo as [[[[trs fss] o'] [[[[co cr] perp] coh] inc]]|]; [|discriminate].
  assert (o' = o) as -> by (cbn [option_map fst snd] in Ef; congruence).
  exists trs, fss, o, co, cr, perp, coh, inc. split; [exact Eoo|].
  destruct (H _ _ _ _ _ _ _ _ eq_refl) as (_ & _ & _ & _ & _ & _ & _ & _ & _ & _ & _ & Q1 & Q2 & _).
  split.
  - destruct (Properties_returned.outcome_slots _ _ _ _ _ _ _ _ _ (L_outcomes.valid_good _ _ ex_film_valid) Ho)
      as (inc' & di & _ & _ & _ & _ & _ & _ & _ & _ & _ & E6 & _).
    rewrite E6. destruct ex_event as [ti He]. cbn [seq map nth].
    unfold L_slots.sl_ri, L_slots.sl_ev, L_slots.sl_nt, choose_n_tir, ex_film. cbn [p_gonio p_nparticle p_nmatrix p_nsample p_nmedium p_thickness p_zlow p_boundary].
    rewrite (Rabs_pos_eq (3 / 2)) by lra. rewrite He. reflexivity.
  - rewrite <- (Q1 eq_refl). apply Q2. intros _ _. split; intros E; apply (f_equal fst) in E; cbn in E; lra.
Qed.

Definition flat_mie_cart (m x : list C) (t p : R) (kd : C) : R * R := (1, 1).
Definition flat_cart (k : C) (a b : list (list R)) (d : R) (thetas phis : list R) : R := 1.
Example C152_workflow_case : exists oo,
  fields_workflow (fun _ => 1) flat_mie_cart flat_cart (Err ValueError) dyed_dilute 4 (fun _ _ => 1 / 2) (fun _ _ => 1 / 3)
    300 100 1 0 0 0 (2 * PI) (fun _ _ => (RtoC 1, RtoC 1, RtoC 0, RtoC 0)) 1.2 0.5 false false true 0 film_call half_draws (fun _ => 1 / 3) (fun _ => 1 / 4) = Ok oo.
Proof.
  destruct dyed_dilute_ok as [S1 S2]. pose proof PI2_3_2 as HP.
  destruct (C152_workflow (fun _ => 1) flat_mie_cart flat_cart (Err ValueError) dyed_dilute 4 (1.2, 0.01) (fun _ _ => 1 / 2) (fun _ _ => 1 / 3)
    300 100 1 0 0 0 (2 * PI) (fun _ _ => (RtoC 1, RtoC 1, RtoC 0, RtoC 0)) 1.2 0.5 false false true 0 film_call half_draws (fun _ => 1 / 3) (fun _ => 1 / 4))
    as (s & Pc & Sc & xe & mu & Es & Em & Emu & HPS & H); try reflexivity; try assumption; try (cbn; lra); try lia.
  - discriminate.
  - intros. cbn. lra.
  - intros. lra.
  - intros i. cbn. lra.
  - intros i. cbn. lra.
  - intros k i. apply mod2_half.
  - unfold valid_params, film_call; cbn. repeat split; try lra; discriminate.
  - destruct (fields_ok (fun _ => 1) flat_mie_cart flat_cart (Err ValueError) dyed_dilute 4 (1.2, 0.01) S1 S2)
      as (s' & P0 & S0 & xe' & rho & Es' & _ & _ & Hr & _ & _ & Emu' & _); [cbn; lra|discriminate|intros; cbn; lra|].
    assert (s' = s) as -> by congruence.
    assert (Emu2 : mu = rho * 1) by (unfold flat_cart in Emu'; congruence).
    destruct H as (oo & Eoo & _).
    + rewrite Emu2. lra.
    + intros p _. assert (Hin : In 0.1 (scat_grid dyed_dilute)) by (unfold scat_grid, linspace, dyed_dilute; cbn; left; lra).
      exists 0.1. split; [exact Hin|]. split; [lra|].
      specialize (HPS 0.1 p Hin). cbn in HPS. injection HPS as <- <-. lra.
    + exists oo. exact Eoo.
Qed.
