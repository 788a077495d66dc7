(** Errors that callers see: more of C55, C110, C111, C123 and C152. *)
From Coq Require Import Lra Lia Psatz String Reals List.
From Verif Require Import Num Spec Spec_scat M_montecarlo M_detector M_scat M_scat_cplx M_refractive_index M_absorption M_init M_simulation
  M_fieldflow Spec_scat_cplx L_num L_sampling L_scat L_scat_cplx L_montecarlo2 Properties_scat_cplx Properties_simulation Properties_workflow2 Properties_fieldflow.
From Coquelicot Require Import Complex.
Import ListNotations.
Open Scope R_scope.

Lemma get_all_none (l : list num) : In None l -> get_all l = None.
Proof.
  intros H. unfold get_all. replace (existsb is_none l) with true; [reflexivity|]. symmetry. apply existsb_exists. now exists None.
Qed.
Lemma normalise_zero (l : list R) u : l <> [] -> Rsum l = 0 -> choice (normalise l) u = Err ValueError.
Proof.
  intros Hl H. unfold choice. rewrite get_all_none; [reflexivity|]. unfold normalise. rewrite H.
  apply in_map_iff. destruct l as [|x l]; [contradiction|]. exists x. rewrite (proj2 (Reqb_true 0 0)) by reflexivity. split; [reflexivity|now left].
Qed.
Lemma normalise_negative (l : list R) u x : In x l -> x * Rsum l < 0 -> choice (normalise l) u = Err ValueError.
Proof.
  intros Hx H. assert (N : Rsum l <> 0) by (intros E; rewrite E in H; lra).
  unfold choice. assert (E : normalise l = map (fun x => Some (x / Rsum l)) l).
  { unfold normalise. rewrite (proj2 (Reqb_false _ _)) by exact N. reflexivity. }
  rewrite E, L_reflection.get_all_somes. replace (existsb _ _) with true; [reflexivity|]. symmetry. apply existsb_exists.
  exists (x / Rsum l). split; [exact (in_map (fun y => y / Rsum l) l x Hx)|]. apply Rltb_true. replace (x / Rsum l) with (x * Rsum l / (Rsum l * Rsum l)) by (field; exact N).
  assert (0 < Rsum l * Rsum l) by nra. apply Rmult_lt_reg_r with (Rsum l * Rsum l); [assumption|]. unfold Rdiv. rewrite Rmult_assoc, Rinv_l; lra.
Qed.

(** C110: a phase function that is zero wherever sin does not vanish (all
    weights sum to 0), or has a negative weight, is refused with ValueError
    whatever the draws: no angle is made up. *)
Theorem C110_refused : forall p lo u_phi u_theta, p <> [] ->
  let w i := nth i p 0 * sin (grid lo PI (length p) i) in
  let s := total (map w (seq 0 (length p))) in
  s = 0 \/ (exists i, (i < length p)%nat /\ w i * s < 0) ->
  sample_angle_1d p lo u_phi u_theta = Err ValueError.
Proof.
  intros p lo up ut Hp w s H. unfold sample_angle_1d, sample_angles_prob. cbv zeta.
  rewrite (map2_linspace p (fun x t => x * sin t * 2 * PI)).
  set (w' := fun i => nth i p 0 * sin (grid lo PI (length p) i) * 2 * PI).
  assert (E : Rsum (map w' (seq 0 (length p))) = 2 * PI * s).
  { rewrite Rsum_total. unfold s. rewrite <- total_map_scale. apply total_map_ext. intros i _. unfold w', w. ring. }
  destruct H as [H|(i & Hi & H)].
  - rewrite normalise_zero; [reflexivity| |rewrite E, H; ring]. destruct p; [contradiction|discriminate].
  - rewrite (normalise_negative _ _ (w' i)); [reflexivity| |].
    + apply in_map. apply in_seq. lia.
    + rewrite E. unfold w'. fold (w i). replace (w i * 2 * PI * (2 * PI * s)) with ((2 * PI) ^ 2 * (w i * s)) by ring.
      pose proof PI_RGT_0. assert (0 < (2 * PI) ^ 2) by (apply pow_lt; lra). nra.
Qed.
Print Assumptions C110_refused.
Example C110_refused_case : sample_angle_1d [0; 0; 0] 0 (1 / 2) (1 / 2) = Err ValueError /\ sample_angle_1d [0; -1; 0; 3; 0] 0 (1 / 2) (1 / 2) = Err ValueError.
Proof.
  split; apply C110_refused; try discriminate.
  - left. cbn [length seq map nth total]. ring.
  - right. exists 1%nat. split; [cbn; lia|]. unfold grid. cbn [length seq map nth total Nat.sub].
    replace (INR 4) with 4 by (cbn; lra). replace (INR 3) with 3 by (cbn; lra). replace (INR 2) with 2 by (cbn; lra). replace (INR 1) with 1 by reflexivity.
    replace (0 + 1 * ((PI - 0) / 4)) with (PI / 4) by field. replace (0 + 3 * ((PI - 0) / 4)) with (PI - PI / 4) by field.
    rewrite sin_PI_x. pose proof PI_RGT_0. assert (0 < sin (PI / 4)) by (apply sin_gt_0; lra). nra.
Qed.

(** C111: the same for phase functions of both angles. *)
Theorem C111_refused : forall p m n lo u_phi u_theta, length p = m -> (forall row, In row p -> length row = n) -> (0 < m)%nat -> (0 < n)%nat ->
  let c j := total (map (fun i => entry p i j) (seq 0 m)) in
  let s := total (map c (seq 0 n)) in
  s = 0 \/ (exists j, (j < n)%nat /\ c j * s < 0) ->
  sample_angle_2d p lo u_phi u_theta = Err ValueError.
Proof.
  intros p m n lo up ut Lm Ln Hm Hn c s H. unfold sample_angle_2d. cbv zeta.
  assert (Lh : length (hd [] p) = n) by (destruct p as [|r p]; [cbn in Lm; lia|apply Ln; now left]). rewrite Lh.
  assert (E : map (fun j => Rsum (column p j)) (seq 0 n) = map c (seq 0 n)).
  { apply map_ext. intros j. rewrite Rsum_total. unfold c, column, entry. rewrite <- Lm. f_equal.
    clear. induction p as [|r p IH]; [reflexivity|]. cbn [length seq map nth]. f_equal. rewrite <- seq_shift, map_map. exact IH. }
  rewrite E. assert (Es : Rsum (map c (seq 0 n)) = s) by apply Rsum_total. destruct H as [H|(j & Hj & H)].
  - rewrite normalise_zero; [reflexivity| |now rewrite Es]. destruct n; [lia|discriminate].
  - rewrite (normalise_negative _ _ (c j)); [reflexivity| |now rewrite Es]. apply in_map. apply in_seq. lia.
Qed.
Print Assumptions C111_refused.
Example C111_refused_case : sample_angle_2d [[0; 0]; [0; 0]] 0 (1 / 2) (1 / 2) = Err ValueError.
Proof.
  apply (C111_refused _ 2 2); try reflexivity; try lia.
  - intros row [<-|[<-|[]]]; reflexivity.
  - left. unfold entry. cbn. ring.
Qed.

(** C152: a table of the phase function with a NaN in it ends the calculation
    with ValueError (numpy's choice refuses it). *)
Theorem C152_nan_refused : forall factorial mie integ poly_cart I nphi u_phi u_theta nevents ntraj spot tmin tmax pmin pmax
    amp nk wavelen coherent polarized documented det_theta P D ux uy o row,
  calc_scat_fields factorial mie integ poly_cart I nphi = Ok o -> In row (f_p o) -> In None row ->
  fields_workflow factorial mie integ poly_cart I nphi u_phi u_theta nevents ntraj spot tmin tmax pmin pmax
    amp nk wavelen coherent polarized documented det_theta P D ux uy = Err ValueError.
Proof.
  intros factorial mie integ pc I nphi up ut nev ntraj spot tmin tmax pmin pmax amp nk wl coh pol doc det P D ux uy o row Eo H1 H2.
  unfold fields_workflow. rewrite Eo. cbn [bind]. replace (get_rows (f_p o)) with (@None (list (list R))); [reflexivity|].
  symmetry. revert H1. generalize (f_p o). intros l. induction l as [|r l IH]; [intros []|]. intros [->|K]; cbn [get_rows].
  - rewrite get_all_none by exact H2. reflexivity.
  - rewrite (IH K). destruct (get_all r); reflexivity.
Qed.
Print Assumptions C152_nan_refused.

(** So does a sample that scatters nothing into any angle of the grid. *)
Theorem C152_dark : forall factorial mie integ poly_cart I nphi n x_eff u_phi u_theta nevents ntraj spot tmin tmax pmin pmax
    amp nk wavelen coherent polarized documented det_theta P D ux uy,
  scat_ok_c factorial I n -> surroundings_c I n -> s_fine I <= 0 -> form_used I <> Some "polydisperse"%string ->
  (forall m y t p a, 0 <= fst (mie m y t p a) /\ 0 <= snd (mie m y t p a)) -> (0 < nphi)%nat -> (0 < s_num I)%nat ->
  scat_medium I = Ok (n, x_eff) ->
  (forall t p, In t (scat_grid I) ->
     scat_cdcs factorial (fun m x th a => mie m x th p a) I (form_used I) (structure_used I) n x_eff t = Ok (Some 0, Some 0)) ->
  fields_workflow factorial mie integ poly_cart I nphi u_phi u_theta nevents ntraj spot tmin tmax pmin pmax
    amp nk wavelen coherent polarized documented det_theta P D ux uy = Err ValueError.
Proof.
  intros factorial mie integ pc I nphi n xe up ut nev ntraj spot tmin tmax pmin pmax amp nk wl coh pol doc det P D ux uy
    SO SU Hf Hnp Ha Hphi Hnum Em Hz.
  destruct (fields_ok factorial mie integ pc I nphi n SO SU Hf Hnp Ha) as (o & Pc & Sc & xe' & rho & Eo & Em' & _ & _ & HPS & Ep & _).
  assert (xe' = xe) as -> by congruence.
  assert (Z : forall t p, In t (scat_grid I) -> Pc t p = 0 /\ Sc t p = 0).
  { intros t p Ht. destruct (HPS t p Ht) as (E & _). rewrite (Hz t p Ht) in E.
    assert (Some 0 = Some (Pc t p) /\ Some 0 = Some (Sc t p)) as [E1 E2] by (split; congruence). split; congruence. }
  assert (Ez : map2 (map2 Rplus) (tabulate Pc (scat_grid I) (phi_grid I nphi)) (tabulate Sc (scat_grid I) (phi_grid I nphi))
    = map (fun _ => map (fun _ => 0) (phi_grid I nphi)) (scat_grid I)).
  { unfold tabulate. rewrite L_slots.map2_maps. apply map_ext_in. intros t Ht. rewrite L_slots.map2_maps. apply map_ext.
    intros p. destruct (Z t p Ht) as [-> ->]. ring. }
  assert (Lt : length (scat_grid I) = s_num I) by apply linspace_length.
  assert (Lp : length (phi_grid I nphi) = nphi) by apply linspace_length.
  assert (T0 : forall {A} (l : list A), Rsum (map (fun _ => 0) l) = 0).
  { intros A l. rewrite Rsum_total. induction l as [|a l IH]; cbn; [reflexivity|]. rewrite IH. ring. }
  eapply (C152_nan_refused factorial mie integ pc I nphi up ut nev ntraj spot tmin tmax pmin pmax amp nk wl coh pol doc det P D ux uy o
    (map (fun _ => None) (phi_grid I nphi)) Eo).
  - rewrite Ep. unfold phase_table. rewrite Ez, !map_map.
    rewrite (map_ext (fun _ : R => Rsum (map (fun _ : R => 0) (phi_grid I nphi))) (fun _ : R => 0)) by (intros; apply T0). rewrite T0.
    assert (N : ndiv 0 0 = None) by (unfold ndiv; rewrite (proj2 (Reqb_true 0 0)) by reflexivity; reflexivity). 
    destruct (scat_grid I) as [|t g]; [cbn in Lt; lia|]. left. cbn [map]. rewrite ?map_map. apply map_ext. intros _. exact N.
  - destruct (phi_grid I nphi) as [|t g]; [cbn in Lp; lia|]. now left.
Qed.
Print Assumptions C152_dark.
Example C152_dark_case :
  fields_workflow (fun _ => 1) (fun _ _ _ _ _ => (0, 0)) flat_cart (Err ValueError) dyed_dilute 4 (fun _ _ => 1 / 2) (fun _ _ => 1 / 3)
    300 100 1 0 0 0 (2 * PI) (fun _ _ => (RtoC 1, RtoC 1, RtoC 0, RtoC 0)) 1.2 0.5 false false true 0 film_call half_draws (fun _ => 1 / 3) (fun _ => 1 / 4)
  = Err ValueError.
Proof.
  destruct dyed_dilute_ok as [S1 S2].
  destruct (fields_ok (fun _ => 1) (fun _ _ _ _ _ => (0, 0)) flat_cart (Err ValueError) dyed_dilute 4 (1.2, 0.01) S1 S2)
      as (s & P0 & S0 & xe & rho & Es & Em & _); [cbn; lra|discriminate|intros; cbn; lra|].
  apply (C152_dark _ _ _ _ _ _ (1.2, 0.01) xe); try assumption; try lia; [cbn; lra|discriminate|intros; cbn; lra|cbn; lia|].
  intros t p _. cbn. rewrite ?Rmult_0_r. reflexivity.
Qed.

(** C123: a sphere without a diameter. *)
Theorem C123_no_diameter : forall factorial mie_fu mie_multi nlayers n_matrix x wavelen n_particle poly,
  absorption_cross_section factorial mie_fu mie_multi (Some "sphere"%string) nlayers [] n_matrix x wavelen n_particle poly = Err IndexError.
Proof. reflexivity. Qed.
Print Assumptions C123_no_diameter.

(** C55: measured data whose two columns differ in length. *)
Theorem C55_data_lengths : forall w ys xs unit, length ys <> length xs ->
  n_material "data" w (Some ys) (Some (xs, unit)) = Err ValueError.
Proof.
  intros w ys xs unit H. unfold n_material. cbn [String.eqb Ascii.eqb Bool.eqb]. rewrite (proj2 (Nat.eqb_neq _ _)) by exact H. reflexivity.
Qed.
Print Assumptions C55_data_lengths.
Example C55_data_lengths_case : n_material "data" 1 (Some [1; 2]) (Some ([1; 2; 3], 1)) = Err ValueError.
Proof. now apply C55_data_lengths. Qed.

(** C47: too few indices for the trajectories (one index would be broadcast, and
    is excluded here). *)
Theorem C47_too_few_indices : forall r i t ti refl_i n ntraj, (length refl_i < ntraj)%nat -> length refl_i <> 1%nat ->
  M_event_distribution.calc_refl_trans_event_traj r i t refl_i ti n ntraj = Err ValueError.
Proof.
  intros r i t ti refl_i n ntraj H _. unfold M_event_distribution.calc_refl_trans_event_traj. cbv zeta.
  rewrite (proj2 (Nat.eqb_neq _ _)); [reflexivity|]. rewrite firstn_length. lia.
Qed.
Print Assumptions C47_too_few_indices.
Example C47_too_few_case : M_event_distribution.calc_refl_trans_event_traj [1; 1; 1] [0; 0; 0] [0; 0; 0] [1; 2]%nat [0; 0; 0]%nat 5 3 = Err ValueError.
Proof. apply C47_too_few_indices; cbn; lia. Qed.
