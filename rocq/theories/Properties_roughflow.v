(** The whole calculation for a film with a rough surface, C149.  Vocabulary in
    Spec_roughflow.v, Spec_scat_cplx.v; model in M_roughflow.v. *)
From Coq Require Import Lra Lia Psatz.
From Verif Require L_diam.
From Verif Require Import Num Spec Spec_scatter Spec_optics Spec_reflection Spec_absorbing Spec_scat Spec_scat_cplx Spec_rough Spec_roughflow
  Spec_detector Spec_events L_num L_sizes L_montecarlo L_montecarlo2 L_scat L_scat_cplx L_simulation L_rough L_roughflow
  M_init M_montecarlo M_detector M_structure M_refractive_index M_reflection M_absorbing M_scat M_scat_cplx M_simulation M_rough M_workflow M_roughflow
  Properties_scat_cplx Properties_simulation Properties_workflow Properties_workflow2.
From Coquelicot Require Import Complex.
Open Scope R_scope.

(** C149.  Take any film - absorbing or not - whose description calc_scat
    accepts, with fine roughness (share [s_fine I] of the surface, 0 if none)
    and coarse roughness (slope [r], 0 if none), at an index not below that of
    the medium.  Then calc_scat returns non-negative coefficients, one more if
    there is fine roughness.  If they are positive and some light is scattered
    other than exactly backwards, the whole calculation, whatever the random
    draws, does not raise, and the reflectance and transmittance, if numbers, are
    fractions that add up to no more than 1 - to exactly 1 for a plain call with
    full detection if nothing absorbs and the surface has no coarse roughness. *)
Theorem C149_film : forall factorial ang mie integ I n nevents ntraj spot tmin tmax pmin pmax r P D uf um u_phi u_theta,
  scat_ok_c factorial I n -> surroundings_c I n -> medium n ->
  0 <= s_fine I <= 1 -> (0 < s_fine I -> exists n', s_nmatrix I = Some n' /\ medium n') ->
  (forall m y t, 0 <= fst (ang m y t) /\ 0 <= snd (ang m y t)) ->
  (forall m y t a, 0 <= fst (mie m y t a) /\ 0 <= snd (mie m y t a)) -> (forall k, nonneg_integrator (integ k)) ->
  (forall e i, 0 <= u_phi e i < 1 /\ 0 <= u_theta e i < 1) ->
  (0 < nevents)%nat -> (0 < ntraj)%nat -> 0 < spot ->
  in01 (d_l0 D) -> in01 (d_l1 D) -> (forall n i, 0 <= d_u D n i < 1) -> (forall i, 0 <= uf i < 1) -> (forall i, 0 <= um i < 1) ->
  valid_params P ntraj -> 0 < p_nmedium P <= p_nsample P ->
  p_kz0rot P = None -> p_kz0refl P = None -> p_boundary P = film -> p_run P = false ->
  exists o mu, calc_scat_any factorial ang mie integ I = Ok o
    /\ o_mu o = Some mu /\ 0 <= mu /\ o_muabs o = 4 * PI * snd n / s_wavelen I
    /\ (s_fine I = 0 -> o_mie o = None) /\ (0 < s_fine I -> exists mm, o_mie o = Some (Some mm) /\ 0 <= mm)
    /\ (0 < mu -> o_mie o <> Some (Some 0) -> scatters factorial ang mie I n -> exists oo,
          surface_workflow factorial ang mie integ I nevents ntraj spot tmin tmax pmin pmax r P D uf um u_phi u_theta = Ok oo
          /\ forall res, oo = Some res -> 0 <= o_refl res /\ 0 <= o_trans res /\ o_refl res + o_trans res <= 1
               /\ (r = 0 -> snd n = 0 -> plain P -> full_detection P -> o_refl res + o_trans res = 1)).
Proof.
  intros factorial ang mie integ I n nevents ntraj spot tmin tmax pmin pmax r P D uf um up ut
    SO SU Hn Hf Hmat Ha Hm Hi Hu Hne Hnt Hs H0 H1 Hd Huf Hum Hv Hns K1 K2 Hb Hr.
  destruct (calc_scat_full factorial ang mie integ I n SO SU Hn Hmat Ha Hm Hi)
    as (o & Pc & Sc & xe & mu & Eo & Em & HPS & Ep & Emu & Hmu & Eabs & M0 & M1).
  exists o, mu. split; [exact Eo|]. split; [exact Emu|]. split; [exact Hmu|]. split; [exact Eabs|].
  split; [intros E; apply M0; lra|]. split; [exact M1|].
  intros Hpos Hmie Hsc. pose proof SO as (_ & _ & _ & _ & _ & Hw & _ & Hmin & _).
  destruct (angles_full factorial ang mie I n Pc Sc xe nevents ntraj up ut Hmin Em HPS Hsc Hu) as (q & rows & Eq & El).
  assert (Hab : 0 <= o_muabs o).
  { rewrite Eabs. pose proof PI_RGT_0. destruct Hn as [_ Hn]. apply Rmult_le_pos; [nra|left; now apply Rinv_0_lt_compat]. }
  unfold surface_workflow. rewrite Eo. cbn [bind]. rewrite Ep, Eq, get_all_some, El. cbn [bind]. rewrite Emu.
  assert (G : forall mm, (forall x, mm = Some x -> 0 < x) -> exists oo,
     surface_film_run nevents ntraj spot tmin tmax pmin pmax mu mm (s_fine I) r (set_muabs P (o_muabs o)) (set_angles D rows) uf um = Ok oo
     /\ forall res, oo = Some res -> 0 <= o_refl res /\ 0 <= o_trans res /\ o_refl res + o_trans res <= 1
          /\ (r = 0 -> snd n = 0 -> plain P -> full_detection P -> o_refl res + o_trans res = 1)).
  { intros mm Hx. destruct (surface_run_ok nevents ntraj spot tmin tmax pmin pmax mu mm (s_fine I) r (set_muabs P (o_muabs o)) (set_angles D rows) uf um)
      as (oo & Eoo & Q); try assumption.
    exists oo. split; [exact Eoo|]. intros res Er. destruct (Q res Er) as (A1 & A2 & A3 & A4).
    split; [exact A1|]. split; [exact A2|]. split; [exact A3|]. intros R0 N0 Hp Hfd. apply A4; try assumption.
    cbn [set_muabs p_muabs]. rewrite Eabs, N0. unfold Rdiv. ring. }
  destruct (o_mie o) as [[mm|]|] eqn:Emie.
  - apply G. intros x Ex. injection Ex as <-. destruct (Rle_lt_dec (s_fine I) 0) as [L|L]; [discriminate M0; lra|].
    destruct (M1 L) as (m' & E' & Hm'). assert (m' = mm) by congruence. subst m'. destruct Hm' as [|<-]; [assumption|]. congruence.
  - destruct (Rle_lt_dec (s_fine I) 0) as [L|L]; [discriminate M0; lra|].
    destruct (M1 L) as (m' & E' & Hm'). congruence.
  - apply G. discriminate.
Qed.
Print Assumptions C149_film.

(** C149.  Without roughness this is the calculation of C119 and C146. *)
Theorem C149_smooth : forall factorial ang mie integ I nevents ntraj spot tmin tmax pmin pmax P D uf um u_phi u_theta,
  s_fine I = 0 ->
  surface_workflow factorial ang mie integ I nevents ntraj spot tmin tmax pmin pmax 0 P D uf um u_phi u_theta
  = film_workflow_any factorial ang mie integ I nevents ntraj spot tmin tmax pmin pmax P D u_phi u_theta.
Proof.
  intros factorial ang mie integ I nev ntraj spot tmin tmax pmin pmax P D uf um up ut Hf.
  unfold surface_workflow, film_workflow_any, workflow_any.
  assert (M : forall o, calc_scat_any factorial ang mie integ I = Ok o -> o_mie o = None).
  { intros o. unfold calc_scat_any, calc_scat. destruct (scat_medium I) as [[n xe]|]; cbn [bind]; [|discriminate].
    destruct (scat_types I) as [[form st]|]; cbn [bind]; [|discriminate].
    destruct (scat_phase _ _ _ _ _ _ _ _) as [pc|]; cbn [bind]; [|discriminate].
    rewrite (proj2 (Rltb_false _ _)) by lra. intros E. injection E as <-. reflexivity. }
  destruct (calc_scat_any factorial ang mie integ I) as [o|e]; cbn [bind]; [|reflexivity].
  unfold after_scat. destruct (get_all (o_p o)) as [p|]; [|reflexivity].
  destruct (sample_angles_1d nev ntraj p (s_min I) up ut) as [rows|e]; cbn [bind]; [|reflexivity].
  rewrite (M o eq_refl). destruct (o_mu o) as [mu|]; [|reflexivity].
  unfold surface_film_run, film_run, trajectories. rewrite (proj2 (Reqb_true 0 0)) by reflexivity.
  destruct (initialize_film _ _ _ _ _ _ _ _ _ _ _ _ _ _ _ _) as [s|e]; cbn [bind fst snd]; [|reflexivity].
  rewrite !sample_step_single by lra. cbn [bind]. reflexivity.
Qed.
Print Assumptions C149_smooth.

(** C149.  Fine roughness leaves the phase function and the other coefficients
    alone. *)
Theorem C149_fine_keeps : forall factorial ang mie integ I f o,
  calc_scat_any factorial ang mie integ (with_fine f I) = Ok o ->
  exists o0, calc_scat_any factorial ang mie integ (with_fine 0 I) = Ok o0
    /\ o_p o0 = o_p o /\ o_mu o0 = o_mu o /\ o_muabs o0 = o_muabs o /\ o_mie o0 = None.
Proof.
  intros factorial ang mie integ I f o. unfold calc_scat_any, calc_scat.
  change (scat_medium (with_fine f I)) with (scat_medium I). change (scat_medium (with_fine 0 I)) with (scat_medium I).
  change (scat_types (with_fine f I)) with (scat_types I). change (scat_types (with_fine 0 I)) with (scat_types I).
  destruct (scat_medium I) as [[n xe]|]; cbn [bind]; [|discriminate].
  destruct (scat_types I) as [[form st]|]; cbn [bind]; [|discriminate].
  change (scat_phase factorial ang (fun n0 st0 => phase_absorbing (integ (scat_k (with_fine f I) n0)) (scat_surfaces (with_fine f I) form)
      (scat_cdcs factorial mie (with_fine f I) form st0 n0 xe) (linspace (s_min (with_fine f I)) PI (s_num (with_fine f I)))) (with_fine f I) form st n xe)
    with (scat_phase factorial ang (fun n0 st0 => phase_absorbing (integ (scat_k (with_fine 0 I) n0)) (scat_surfaces (with_fine 0 I) form)
      (scat_cdcs factorial mie (with_fine 0 I) form st0 n0 xe) (linspace (s_min (with_fine 0 I)) PI (s_num (with_fine 0 I)))) (with_fine 0 I) form st n xe).
  destruct (scat_phase _ _ _ (with_fine 0 I) _ st _ _) as [pc|]; cbn [bind]; [|discriminate].
  change (Rltb 0 (s_fine (with_fine 0 I))) with (Rltb 0 0). rewrite (proj2 (Rltb_false 0 0)) by lra.
  intros E. eexists. split; [reflexivity|]. cbn [o_p o_mu o_muabs o_mie].
  destruct (Rltb 0 (s_fine (with_fine f I))).
  - destruct (s_nmatrix (with_fine f I)) as [n'|]; [|discriminate].
    destruct (scat_phase _ _ _ _ _ _ _ _) as [pc'|]; cbn [bind] in E; [|discriminate]. injection E as <-. repeat split.
  - injection E as <-. repeat split.
Qed.
Print Assumptions C149_fine_keeps.

(** C149.  Fine roughness of a share so small that it hits less than half a
    trajectory changes nothing: the whole calculation returns exactly what it
    returns without. *)
Theorem C149_tiny_roughness : forall factorial ang mie integ I f nevents ntraj spot tmin tmax pmin pmax r P D uf um u_phi u_theta o mm,
  (0 < nevents)%nat -> 0 <= f <= 1 -> INR ntraj * f <= 1 / 2 ->
  calc_scat_any factorial ang mie integ (with_fine f I) = Ok o -> o_mie o = Some (Some mm) ->
  surface_workflow factorial ang mie integ (with_fine f I) nevents ntraj spot tmin tmax pmin pmax r P D uf um u_phi u_theta
  = surface_workflow factorial ang mie integ (with_fine 0 I) nevents ntraj spot tmin tmax pmin pmax r P D uf um u_phi u_theta.
Proof.
  intros factorial ang mie integ I f nev ntraj spot tmin tmax pmin pmax r P D uf um up ut o mm Hn Hf Ht Eo Emm.
  destruct (C149_fine_keeps factorial ang mie integ I f o Eo) as (o0 & Eo0 & Ep & Emu & Eab & Em0).
  unfold surface_workflow. rewrite Eo, Eo0. cbn [bind]. rewrite Ep, Emu, Eab, Em0, Emm.
  destruct (get_all (o_p o)) as [p|]; [|reflexivity]. change (s_min (with_fine f I)) with (s_min I). change (s_min (with_fine 0 I)) with (s_min I).
  destruct (sample_angles_1d nev ntraj p (s_min I) up ut) as [rows|e]; cbn [bind]; [|reflexivity].
  destruct (o_mu o) as [mu|]; [|reflexivity]. cbn [with_fine s_fine].
  unfold surface_film_run. destruct (if Reqb r 0 then _ else _) as [sp|e]; cbn [bind]; [|reflexivity].
  assert (E : sample_step ntraj mu (Some mm) f (uniform_rows nev ntraj (d_u (set_angles D rows))) um
            = sample_step ntraj mu None 0 (uniform_rows nev ntraj (d_u (set_angles D rows))) um); [|now rewrite E].
  rewrite sample_step_single by lra. unfold sample_step.
  rewrite (proj2 (Rltb_false 1 f)), (proj2 (Rltb_false f 0)) by lra. cbn [orb].
  assert (Z : M_montecarlo.round_half_even (INR ntraj * f) = 0%Z).
  { assert (0 <= INR ntraj * f) by (apply Rmult_le_pos; [apply pos_INR|lra]).
    unfold M_montecarlo.round_half_even. rewrite (L_diam.floorZ_between (INR ntraj * f) 0) by (change (IZR 0) with 0; lra). cbv zeta.
    replace (INR ntraj * f - IZR 0) with (INR ntraj * f) by (change (IZR 0) with 0; ring).
    destruct (Rltb (INR ntraj * f) (1 / 2)); [reflexivity|]. rewrite (proj2 (Rltb_false (1 / 2) _)) by lra. reflexivity. }
  rewrite Z. cbn [Z.to_nat seq map]. unfold overwrite_first. cbn [app length skipn].
  destruct nev as [|nev]; [lia|]. unfold uniform_rows. cbn [seq map]. reflexivity.
Qed.
Print Assumptions C149_tiny_roughness.

(** The dyed sample of C146 with 30 % fine roughness and facets of slope 1/2: a
    run of 300 events for 100 trajectories meets all hypotheses. *)
Example C149_case : exists oo,
  surface_workflow (fun _ => 1) isotropic flat_mie flat_integ (with_fine 0.3 dyed_dilute) 300 100 1 0 (PI / 4) 0 (2 * PI) (1 / 2)
    film_call half_draws (fun _ => 1 / 2) (fun _ => 1 / 3) (fun _ _ => 1 / 2) (fun _ _ => 1 / 3) = Ok oo
  /\ forall r, oo = Some r -> o_refl r + o_trans r <= 1.
Proof.
  destruct dyed_dilute_ok as [S1 S2]. pose proof PI2_3_2 as HP.
  assert (S1' : scat_ok_c (fun _ => 1) (with_fine 0.3 dyed_dilute) (1.2, 0.01)) by exact S1.
  assert (S2' : surroundings_c (with_fine 0.3 dyed_dilute) (1.2, 0.01)) by exact S2.
  assert (Hi : forall k, nonneg_integrator (flat_integ k)) by (intros k par perp d a lo hi _ _ _; cbn; lra).
  destruct (C126_coefficients (fun _ => 1) isotropic flat_mie flat_integ dyed_dilute (1.2, 0.01) S1 S2)
    as (o0 & P0 & S0 & xe & rho & m & Eo0 & Em & _ & Hr & HPS & Emu0 & _ & Hav & _); [cbn; lra|cbn; lra|intros; cbn; lra|exact Hi|].
  assert (Em1 : m = 1) by (cbn in Hav; now destruct Hav as (r & _ & ->)).
  destruct (C126_rough_coefficient (fun _ => 1) isotropic flat_mie flat_integ (with_fine 0.3 dyed_dilute) (1.2, 0.01) (1.2, 0.01) S1' S2')
    as (o1 & P1 & Q1 & rho1 & m1 & Eo1 & _ & Hr1 & _ & Emie1 & _ & Hav1);
    [cbn; lra|cbn; lra|reflexivity|intros E; apply (f_equal fst) in E; cbn in E; lra|cbn; lra|intros; cbn; lra|exact Hi|].
  assert (Em1' : m1 = 1) by (cbn in Hav1; now destruct Hav1 as (r & _ & ->)).
  destruct (C149_fine_keeps (fun _ => 1) isotropic flat_mie flat_integ dyed_dilute 0.3 o1 Eo1) as (o2 & Eo2 & _ & Emu2 & _).
  change (with_fine 0 dyed_dilute) with dyed_dilute in Eo2. assert (o2 = o0) by congruence. subst o2.
  destruct (C149_film (fun _ => 1) isotropic flat_mie flat_integ (with_fine 0.3 dyed_dilute) (1.2, 0.01) 300 100 1 0 (PI / 4) 0 (2 * PI) (1 / 2)
    film_call half_draws (fun _ => 1 / 2) (fun _ => 1 / 3) (fun _ _ => 1 / 2) (fun _ _ => 1 / 3))
    as (o & mu & Eo & Emu & _ & _ & _ & _ & H); try reflexivity; try assumption; try lia; try (cbn; lra);
    try (intros; cbn; lra).
  - unfold medium; cbn; lra.
  - intros _. exists (1.2, 0.01). split; [reflexivity|]. unfold medium; cbn; lra.
  - intros i. cbn. lra.
  - intros i. cbn. lra.
  - intros k i. apply mod2_half.
  - unfold valid_params, film_call; cbn. repeat split; try lra; discriminate.
  - assert (o1 = o) by congruence. subst o1. assert (mu = rho * m) by congruence. subst mu m m1.
    destruct H as (oo & Eoo & Q).
    + lra.
    + rewrite Emie1. intros E. assert (rho1 * 1 = 0) by congruence. lra.
    + exists xe, 0.1. assert (Hin : In 0.1 (scat_grid dyed_dilute)) by (unfold scat_grid, linspace, dyed_dilute; cbn; left; lra).
      specialize (HPS _ Hin). exists (P0 0.1), (S0 0.1). split; [exact Em|]. split; [exact Hin|]. split; [lra|].
      split.
      * unfold sample_dcs. rewrite (proj2 (Reqb_false _ _)) by (cbn; lra). exact HPS.
      * cbn in HPS. injection HPS as <- <-. lra.
    + exists oo. split; [exact Eoo|]. intros r Er. apply (Q r Er).
Qed.
