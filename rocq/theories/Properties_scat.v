(** Scattering parameters and sampled angles: C110-C116. *)
From Coq Require Import Lia Lra.
From Verif Require Import Num Spec Spec_scatter Spec_optics L_num L_trapezoid M_model M_montecarlo M_structure
  M_refractive_index M_reflection M_scat Spec_reflection Spec_scat L_montecarlo2 L_slots L_sizes L_reflection2 L_dcs L_sampling L_scat.
From Coquelicot Require Import Complex.
Open Scope R_scope.

(** ** C110: angles sampled from a phase function of the polar angle *)

(** What "picks" means for a uniform draw: item i is drawn exactly for the
    draws of an interval whose length is its share of the weights. *)
Theorem C110_share_is_probability : forall w n i, (i < n)%nat -> 0 < total (map w (seq 0 n)) ->
  exists a, forall u, picks w n u i <-> a <= u < a + share w n i.
Proof.
  intros w n i Hi Ht. exists (total (map w (seq 0 i)) / total (map w (seq 0 n))). intros u. unfold picks, share.
  rewrite seq_S, map_app, total_app. cbn [Nat.add map total].
  set (a := total (map w (seq 0 i))). set (s := total (map w (seq 0 n))) in *.
  assert (X : forall x y, x / s <= y <-> x <= y * s).
  { intros x y. split; intros H.
    - apply Rmult_le_compat_r with (r := s) in H; [|lra]. unfold Rdiv in H. rewrite Rmult_assoc, Rinv_l in H; lra.
    - apply Rmult_le_reg_r with s; [exact Ht|]. unfold Rdiv. rewrite Rmult_assoc, Rinv_l; lra. }
  replace (a / s + w i / s) with ((a + w i) / s) by (field; lra).
  assert (Y : u < (a + w i) / s <-> u * s < a + w i).
  { pose proof (X (a + w i) u). split; intros H0; apply Rnot_le_lt; intros H1; [apply H in H1|apply H in H1]; lra. }
  rewrite X, Y. rewrite Rplus_0_r. tauto.
Qed.
Print Assumptions C110_share_is_probability.

(** One event: the polar angle is the grid angle picked with weights p sin; the
    azimuth is 2 pi times its draw. *)
Theorem C110_one_event : forall p lo u_phi u_theta,
  0 <= lo <= PI -> Forall (fun x => 0 <= x) p -> 0 <= u_theta < 1 ->
  let w i := nth i p 0 * sin (grid lo PI (length p) i) in
  0 < total (map w (seq 0 (length p))) ->
  exists i, sample_angle_1d p lo u_phi u_theta = Ok (grid lo PI (length p) i, 2 * PI * u_phi)
    /\ picks w (length p) u_theta i.
Proof. exact angle_1d. Qed.
Print Assumptions C110_one_event.

(** The whole array: nevents-1 rows of ntraj pairs, every one from its own
    draws. *)
Theorem C110_array : forall nevents ntraj p lo u_phi u_theta,
  0 <= lo <= PI -> Forall (fun x => 0 <= x) p ->
  (forall e i, 0 <= u_phi e i < 1 /\ 0 <= u_theta e i < 1) ->
  let w i := nth i p 0 * sin (grid lo PI (length p) i) in
  0 < total (map w (seq 0 (length p))) ->
  exists l, sample_angles_1d nevents ntraj p lo u_phi u_theta = Ok l /\ length l = (nevents - 1)%nat
    /\ forall e row, nth_error l e = Some row -> length row = ntraj
        /\ forall t theta phi, nth_error row t = Some (theta, phi) ->
             phi = 2 * PI * u_phi e t /\ 0 <= phi < 2 * PI /\ lo <= theta <= PI
             /\ exists i, theta = grid lo PI (length p) i /\ picks w (length p) (u_theta e t) i.
Proof.
  intros nevents ntraj p lo up ut Hlo Hp Hu w Ht. unfold sample_angles_1d. pose proof PI_RGT_0 as HP.
  destruct (events_of_ok (fun e i => sample_angle_1d p lo (up e i) (ut e i)) (fun e t a => snd a = 2 * PI * up e t /\ 0 <= snd a < 2 * PI /\ lo <= fst a <= PI
             /\ exists i, fst a = grid lo PI (length p) i /\ picks w (length p) (ut e t) i) (nevents - 1) ntraj) as (l & El & Ll & Hl).
  2:{ exists l. split; [exact El|]. split; [exact Ll|]. intros e row Hrow. destruct (Hl e row Hrow) as [L1 L2].
      split; [exact L1|]. intros t theta phi Ha. exact (L2 t (theta, phi) Ha). }
  intros e i _ _. destruct (Hu e i) as [U1 U2].
  destruct (angle_1d p lo (up e i) (ut e i) Hlo Hp U2 Ht) as (k & E & Hk).
  exists (grid lo PI (length p) k, 2 * PI * up e i). split; [exact E|]. cbn [fst snd].
  split; [reflexivity|]. split; [nra|]. split; [apply grid_range; [lra|apply Hk]|]. eauto.
Qed.
Print Assumptions C110_array.

Example C110_case : let p := [1; 2; 1] in let w i := nth i p 0 * sin (grid 0 PI (length p) i) in
  Forall (fun x => 0 <= x) p /\ 0 < total (map w (seq 0 (length p))) /\ picks w 3 (1 / 2) 1.
Proof.
  cbv zeta. split; [repeat (constructor; [lra|]); constructor|]. unfold picks, grid.
  cbn [length seq map total nth Nat.sub]. pose proof PI_RGT_0.
  replace (INR 2) with 2 by (cbn; lra). replace (INR 1) with 1 by reflexivity. replace (INR 0) with 0 by reflexivity.
  replace (0 + 1 * ((PI - 0) / 2)) with (PI / 2) by field.
  replace (0 + 0 * ((PI - 0) / 2)) with 0 by field.
  replace (0 + 2 * ((PI - 0) / 2)) with PI by field. rewrite sin_0, sin_PI2, sin_PI.
  split; [lra|]. split; [lia|lra].
Qed.

(** ** C111: angles sampled from a phase function of both angles *)

(** The law of one event: the azimuth is picked by the column sums of p, the
    polar angle within that column by p sin. *)
Theorem C111_law : forall p m n lo u_phi u_theta,
  table p m n -> (0 < m)%nat -> 0 <= lo <= PI -> 0 <= u_phi < 1 -> 0 <= u_theta < 1 ->
  let c j := total (map (fun i => entry p i j) (seq 0 m)) in
  let w j i := entry p i j * sin (grid lo PI m i) in
  (forall j, (j < n)%nat -> 0 < c j -> 0 < total (map (w j) (seq 0 m))) ->
  0 < total (map c (seq 0 n)) ->
  exists i j, sample_angle_2d p lo u_phi u_theta = Ok (grid lo PI m i, grid lo (2 * PI) n j)
    /\ picks c n u_phi j /\ picks (w j) m u_theta i.
Proof. exact angle_2d. Qed.
Print Assumptions C111_law.

Theorem C111_array : forall nevents ntraj p m n lo u_phi u_theta,
  table p m n -> (0 < m)%nat -> 0 <= lo <= PI ->
  (forall e i, 0 <= u_phi e i < 1 /\ 0 <= u_theta e i < 1) ->
  let c j := total (map (fun i => entry p i j) (seq 0 m)) in
  let w j i := entry p i j * sin (grid lo PI m i) in
  (forall j, (j < n)%nat -> 0 < c j -> 0 < total (map (w j) (seq 0 m))) ->
  0 < total (map c (seq 0 n)) ->
  exists l, sample_angles_2d nevents ntraj p lo u_phi u_theta = Ok l /\ length l = (nevents - 1)%nat
    /\ forall e row, nth_error l e = Some row -> length row = ntraj
        /\ forall t theta phi, nth_error row t = Some (theta, phi) ->
             exists i j, theta = grid lo PI m i /\ phi = grid lo (2 * PI) n j
               /\ picks c n (u_phi e t) j /\ picks (w j) m (u_theta e t) i.
Proof.
  intros nevents ntraj p m n lo up ut Htab Hm Hlo Hu c w Hw Hc. unfold sample_angles_2d.
  destruct (events_of_ok (fun e i => sample_angle_2d p lo (up e i) (ut e i)) (fun e t a => exists i j, fst a = grid lo PI m i /\ snd a = grid lo (2 * PI) n j
               /\ picks c n (up e t) j /\ picks (w j) m (ut e t) i) (nevents - 1) ntraj) as (l & El & Ll & Hl).
  2:{ exists l. split; [exact El|]. split; [exact Ll|]. intros e row Hrow. destruct (Hl e row Hrow) as [L1 L2].
      split; [exact L1|]. intros t theta phi Ha. exact (L2 t (theta, phi) Ha). }
  intros e i _ _. destruct (Hu e i) as [U1 U2].
  destruct (angle_2d p m n lo (up e i) (ut e i) Htab Hm Hlo U1 U2 Hw Hc) as (k & j & E & Hj & Hk).
  eexists. split; [exact E|]. exists k, j. auto.
Qed.
Print Assumptions C111_array.

(** When is that the right law, i.e. each direction drawn in proportion to p
    times the solid angle (p sin)?  Exactly when the column sums of p and those
    of p sin are proportional. *)
Theorem C111_right_law_iff : forall p m n lo,
  let c j := total (map (fun i => entry p i j) (seq 0 m)) in
  let w j i := entry p i j * sin (grid lo PI m i) in
  let W j := total (map (w j) (seq 0 m)) in
  (0 < n)%nat -> (forall j, (j < n)%nat -> 0 < c j /\ 0 < W j) ->
  ((forall i j, (i < m)%nat -> (j < n)%nat ->
     share c n j * share (w j) m i = w j i / total (map W (seq 0 n)))
   <-> (forall j k, (j < n)%nat -> (k < n)%nat -> c j * W k = c k * W j)).
Proof. intros p m n lo c w W Hn H. exact (joint_iff c w m n H Hn). Qed.
Print Assumptions C111_right_law_iff.

(** In general it is not: the azimuth's weights lack the factor sin. *)
Theorem C111_right_law_refuted : exists p m n lo i j,
  let c j := total (map (fun i => entry p i j) (seq 0 m)) in
  let w j i := entry p i j * sin (grid lo PI m i) in
  let W j := total (map (w j) (seq 0 m)) in
  table p m n /\ 0 < lo <= PI /\ (i < m)%nat /\ (j < n)%nat /\ (forall k, (k < n)%nat -> 0 < c k /\ 0 < W k)
  /\ share c n j * share (w j) m i = 1 / 2
  /\ 20 * (w j i / total (map W (seq 0 n))) < 1.
Proof.
  exists [[1; 0]; [0; 1]; [0; 0]], 3%nat, 2%nat, (1 / 100), 0%nat, 0%nat. cbv zeta.
  pose proof PI_RGT_0. pose proof PI2_3_2.
  unfold share, entry, grid. cbn [seq map total nth Nat.sub].
  replace (INR 2) with 2 by (cbn; lra). replace (INR 1) with 1 by reflexivity. replace (INR 0) with 0 by reflexivity.
  replace (1 / 100 + 1 * ((PI - 1 / 100) / 2)) with (PI / 2 + 1 / 200) by field.
  replace (1 / 100 + 0 * ((PI - 1 / 100) / 2)) with (1 / 100) by field.
  assert (S1 : 0 < sin (1 / 100) < 1 / 100) by (split; [apply sin_gt_0; lra|apply sin_lt_x; lra]).
  assert (S2 : 3 / 4 < sin (PI / 2 + 1 / 200)).
  { rewrite sin_plus, sin_PI2, cos_PI2. assert (3 / 4 < cos (1 / 200)); [|lra].
    pose proof (sin2_cos2 (1 / 200)) as Q. unfold Rsqr in Q.
    assert (0 < sin (1 / 200) < 1 / 200) by (split; [apply sin_gt_0; lra|apply sin_lt_x; lra]).
    assert (0 < cos (1 / 200)) by (apply cos_gt_0; lra). nra. }
  assert (S3 : sin (1 / 100 + 2 * ((PI - 1 / 100) / 2)) = 0)
    by (replace (1 / 100 + 2 * ((PI - 1 / 100) / 2)) with PI by field; apply sin_PI).
  rewrite S3. set (s1 := sin (1 / 100)) in *. set (s2 := sin (PI / 2 + 1 / 200)) in *.
  repeat split; try lra; try lia.
  - repeat (constructor; [split; [reflexivity|repeat (constructor; [lra|]); constructor]|]). constructor.
  - destruct k as [|[|k]]; [| |lia]; cbn; lra.
  - destruct k as [|[|k]]; [| |lia]; cbn; fold s1 s2; lra.
  - field. lra.
  - replace (1 * s1 + (0 * s2 + (0 * 0 + 0)) + (0 * s1 + (1 * s2 + (0 * 0 + 0)) + 0)) with (s1 + s2) by ring.
    apply Rmult_lt_reg_r with (s1 + s2); [lra|].
    replace (20 * (1 * s1 / (s1 + s2)) * (s1 + s2)) with (20 * s1) by (field; lra). lra.
Qed.
Print Assumptions C111_right_law_refuted.

Example C111_case : exists p, table p 2 2 /\ forall j, (j < 2)%nat ->
  0 < total (map (fun i => entry p i j * sin (grid (PI / 4) PI 2 i)) (seq 0 2)).
Proof.
  exists [[1; 2]; [3; 4]]. pose proof PI_RGT_0. split.
  - split; [reflexivity|]. repeat (constructor; [split; [reflexivity|repeat (constructor; [lra|]); constructor]|]). constructor.
  - assert (0 < sin (PI / 4)) by (apply sin_gt_0; lra).
    intros [|[|j]] Hj; [| |lia]; unfold entry, grid; cbn [seq map total nth Nat.sub]; cbn [INR];
      replace (PI / 4 + 0 * ((PI - PI / 4) / 1)) with (PI / 4) by field;
      replace (PI / 4 + 1 * ((PI - PI / 4) / 1)) with PI by field; rewrite sin_PI; lra.
Qed.

(** ** C112: number density in calc_scat *)

(** Density times mean particle volume is the volume fraction, for one or two
    species, and also when one of the two is absent. *)
Theorem C112_density : forall I, s_radius I <> [] -> Forall (fun r => 0 < r) (s_radius I) ->
  (forall r2, s_radius2 I = Some r2 -> r2 <> [] /\ Forall (fun r => 0 < r) r2) ->
  (forall c0 c1, s_conc I = Some (c0, c1) -> 0 <= c0 /\ 0 <= c1 /\ c0 + c1 = 1) ->
  exists rho, scat_rho (s_vf I) (s_radius I) (other_radius I) (s_conc I) = Some rho
    /\ rho * mean_volume I = s_vf I.
Proof.
  intros I H1 H2 H3 H4. destruct (rho_of_input I H1 H2 H3 H4) as (rho & E & V & _). eauto.
Qed.
Print Assumptions C112_density.

(** Only the ratio of the concentrations counts. *)
Theorem C112_ratio : forall vf radius radius2 c0 c1 k, 0 < Rmax_list radius -> 0 < Rmax_list radius2 ->
  0 <= c0 -> 0 <= c1 -> 0 < c0 + c1 -> 0 < k ->
  scat_rho vf radius radius2 (Some (k * c0, k * c1)) = scat_rho vf radius radius2 (Some (c0, c1)).
Proof.
  intros vf r r2 c0 c1 k Hr Hr2 H0 H1 Hs Hk. unfold scat_rho. cbn [default_conc]. cbv zeta.
  assert (0 <= k * c0) by (apply Rmult_le_pos; lra). assert (0 <= k * c1) by (apply Rmult_le_pos; lra).
  assert (0 < k * c0 + k * c1) by (rewrite <- Rmult_plus_distr_l; apply Rmult_lt_0_compat; lra).
  rewrite !density_term_value by lra. cbn [nmap nmap2].
  pose proof (pow_lt _ 3 Hr). pose proof (pow_lt _ 3 Hr2).
  assert (forall a b, 0 <= a -> 0 <= b -> 0 < a + b -> 0 < a * Rmax_list r ^ 3 + b * Rmax_list r2 ^ 3) as D.
  { intros a b A B AB. assert (0 <= a * Rmax_list r ^ 3) by (apply Rmult_le_pos; lra).
    assert (0 <= b * Rmax_list r2 ^ 3) by (apply Rmult_le_pos; lra).
    destruct (Rle_lt_or_eq_dec _ _ A) as [P|<-].
    - assert (0 < a * Rmax_list r ^ 3) by (apply Rmult_lt_0_compat; lra). lra.
    - assert (0 < b * Rmax_list r2 ^ 3) by (apply Rmult_lt_0_compat; lra). lra. }
  pose proof (D c0 c1 H0 H1 Hs). set (x := Rmax_list r ^ 3) in *. set (y := Rmax_list r2 ^ 3) in *.
  f_equal. f_equal. f_equal.
  - replace (k * c0 * x + k * c1 * y) with (k * (c0 * x + c1 * y)) by ring. field. split; lra.
  - replace (k * c1 * y + k * c0 * x) with (k * (c0 * x + c1 * y)) by ring.
    replace (c1 * y + c0 * x) with (c0 * x + c1 * y) by ring. field. split; lra.
Qed.
Print Assumptions C112_ratio.

Example C112_case : scat_rho (1 / 2) [1] [2] (Some (0, 1)) = Some (1 / 2 / sphere_volume 2).
Proof.
  unfold scat_rho. cbn [default_conc Rmax_list fold_right]. rewrite !Rmax_left by lra.
  rewrite !density_term_value by lra. cbn [nmap2]. unfold nmap, option_map. f_equal. unfold sphere_volume. pose proof PI_RGT_0. field. lra.
Qed.

(** ** C113: scattering coefficient and phase function *)

(** In a non-absorbing medium calc_scat succeeds: the scattering coefficient is
    number density times total cross section (and so not negative), the
    absorption coefficient 0, and unless nothing scatters the phase function is
    a distribution proportional to the differential cross section. *)
Theorem C113_coefficients : forall factorial ang special I n,
  scat_ok factorial I n -> surroundings I n -> s_fine I <= 0 ->
  (forall m y t, 0 <= fst (ang m y t) /\ 0 <= snd (ang m y t)) ->
  exists o P S x_eff rho, calc_scat factorial ang special I = Ok o
    /\ scat_medium I = Ok (RtoC n, x_eff) /\ rho * mean_volume I = s_vf I /\ 0 < rho
    /\ (forall t, In t (scat_grid I) ->
          scat_dcs factorial ang I (form_used I) (structure_used I) n x_eff t = Ok (Some (P t), Some (S t)))
    /\ (let mu := rho * cross_sec (2 * PI * n / s_wavelen I) (2 * PI) (scat_grid I) (unpol P S) in
        o_mu o = Some mu /\ 0 <= mu)
    /\ o_mie o = None /\ o_muabs o = 0
    /\ (let s := total (map (fun t => P t + S t) (scat_grid I)) in
        s <> 0 -> exists q, o_p o = map (fun t => Some (q t)) (scat_grid I)
          /\ total (map q (scat_grid I)) = 1
          /\ forall t, In t (scat_grid I) -> 0 <= q t /\ q t * s = P t + S t).
Proof.
  intros factorial ang special I n SO SU Hf Ha.
  destruct (calc_scat_ok factorial ang special I n SO SU Hf Ha)
    as (o & P & S & x_eff & rho & Eo & Em & Er & Ev & Hr & HPS & Ep & Emu & Emie & Eabs).
  exists o, P, S, x_eff, rho. repeat (split; [assumption|]).
  destruct SO as (S1 & S2 & S3 & S4 & S5 & S6 & S7 & S8 & S9 & S10 & S11). pose proof PI_RGT_0.
  split; [intros t Ht; now apply HPS|]. split.
  { cbv zeta. split; [exact Emu|]. apply Rmult_le_pos; [lra|]. apply sigma_nonneg.
    - apply Rmult_lt_0_compat; [nra|now apply Rinv_0_lt_compat].
    - lra.
    - apply linspace_ascending; lra.
    - intros t Ht. apply linspace_in in Ht; lra.
    - intros t Ht. destruct (HPS t Ht) as (_ & A & B). unfold unpol. lra. }
  split; [exact Emie|]. split; [exact Eabs|]. cbv zeta.
  set (s := total (map (fun t => P t + S t) (scat_grid I))). intros Hs.
  assert (N : forall t, In t (scat_grid I) -> 0 <= P t /\ 0 <= S t) by (intros t Ht; split; now apply HPS).
  exists (fun t => (P t + S t) / s). rewrite Ep. split; [apply (phase_dist P S (scat_grid I) N Hs)|].
  assert (0 <= s).
  { apply total_map_nonneg. intros t Ht. destruct (N t Ht). lra. }
  split.
  - rewrite <- (map_map (fun t => P t + S t) (fun x => x / s)), total_div by exact Hs. fold s. field. exact Hs.
  - intros t Ht. destruct (N t Ht) as [A B]. split; [|field; exact Hs].
    apply Rmult_le_pos; [lra|]. left. apply Rinv_0_lt_compat. lra.
Qed.
Print Assumptions C113_coefficients.

(** With fine roughness the second coefficient is that of the same particles
    without structure factor in the matrix. *)
Theorem C113_rough_coefficient : forall factorial ang special I n n',
  scat_ok factorial I n -> surroundings I n -> 0 < s_fine I -> s_nmatrix I = Some (RtoC n') -> 0 < n' ->
  form_ok factorial (length (s_np I)) (form_used I) (scat_poly I n') ->
  (forall m y t, 0 <= fst (ang m y t) /\ 0 <= snd (ang m y t)) ->
  exists o P S rho, calc_scat factorial ang special I = Ok o
    /\ rho * mean_volume I = s_vf I
    /\ (forall t, In t (scat_grid I) ->
          scat_dcs factorial ang I (form_used I) S_none n' None t = Ok (Some (P t), Some (S t)))
    /\ o_mie o = Some (Some (rho * cross_sec (2 * PI * n' / s_wavelen I) (2 * PI) (scat_grid I) (unpol P S))).
Proof.
  intros factorial ang special I n n' SO SU Hf En Hn' Hform Ha.
  assert (SO' := SO). destruct SO' as (H1 & H2 & H3 & H4 & H5 & H6 & H7 & H8 & H9 & H10 & H11).
  destruct (scat_medium_ok I n SU H1 H2 H5 H6) as (x_eff & Em & _ & Hx).
  destruct (rho_of_input I H1 H2 H3 H4) as (rho & Er & Ev & Hr).
  destruct (scat_phase_ok factorial ang special I (form_used I) (structure_used I) n x_eff) as (P & S & HPS & Ep); try assumption.
  destruct (scat_phase_ok factorial ang special I (form_used I) S_none n' None) as (P' & S' & HPS' & Ep'); try assumption.
  { exact Logic.I. }
  { destruct (s_radius I) as [|r rs]; [congruence|]. inversion H2; subst. left. apply Rgt_not_eq.
    apply size_parameter_pos; assumption. }
  unfold calc_scat. rewrite Em. cbn [bind]. rewrite (scat_types_ok I H9). cbn [bind]. rewrite Ep, Er. cbn [bind fst snd nmap2].
  rewrite (proj2 (Rltb_true _ _)) by exact Hf. rewrite En, Ep'. cbn [bind snd nmap2].
  eexists _, P', S', rho. split; [reflexivity|]. split; [exact Ev|]. cbn [o_mie]. split; [|reflexivity].
  intros t Ht. now apply HPS'.
Qed.
Print Assumptions C113_rough_coefficient.

(** Roughness without the matrix index is refused. *)
Theorem C113_rough_needs_matrix : forall factorial ang special I n,
  scat_ok factorial I n -> surroundings I n -> 0 < s_fine I -> s_nmatrix I = None ->
  (forall m y t, 0 <= fst (ang m y t) /\ 0 <= snd (ang m y t)) ->
  calc_scat factorial ang special I = Err ValueError.
Proof.
  intros factorial ang special I n SO SU Hf En Ha.
  assert (SO' := SO). destruct SO' as (H1 & H2 & H3 & H4 & H5 & H6 & H7 & H8 & H9 & H10 & H11).
  destruct (scat_medium_ok I n SU H1 H2 H5 H6) as (x_eff & Em & _ & Hx).
  destruct (scat_phase_ok factorial ang special I (form_used I) (structure_used I) n x_eff) as (P & S & HPS & Ep); try assumption.
  unfold calc_scat. rewrite Em. cbn [bind]. rewrite (scat_types_ok I H9). cbn [bind]. rewrite Ep. cbn [bind].
  rewrite (proj2 (Rltb_true _ _)) by exact Hf. rewrite En. reflexivity.
Qed.
Print Assumptions C113_rough_needs_matrix.

Definition glass_scat (em : bool) (npart : C) (nsample nmatrix : C) (fine : R) : scat_in :=
  mk_sin [0.1] [npart] nsample 0.5 0.5 None None None false fine 0.1 200 (S_name "glass")
    (Some "sphere"%string) None (Some nmatrix) em em.
Example C113_rough_case : let I := mk_sin [0.1] [RtoC 1.5] (RtoC 1.2) 0.5 0.5 None None None false 0.3 0.1 200 (S_name "glass")
    (Some "sphere"%string) None None true true in
  scat_ok (fun _ => 1) I 1.2 /\ surroundings I 1.2 /\ 0 < s_fine I /\ s_nmatrix I = None.
Proof.
  pose proof PI2_3_2. unfold scat_ok, surroundings; cbn. split; [|split; [reflexivity|split; [lra|reflexivity]]].
  split; [discriminate|]. split; [constructor; [lra|constructor]|]. split; [discriminate|]. split; [discriminate|].
  split; [lra|]. split; [lra|]. split; [lra|]. split; [split; lra|]. split; [discriminate|].
  split; [right; left; reflexivity|]. left. split; [reflexivity|]. split; lra.
Qed.
Example C113_case : scat_ok (fun _ => 1) (glass_scat true (RtoC 1.5) (RtoC 1.2) (RtoC 1) 0) 1.2
  /\ surroundings (glass_scat true (RtoC 1.5) (RtoC 1.2) (RtoC 1) 0) 1.2.
Proof.
  pose proof PI2_3_2. unfold scat_ok, surroundings, glass_scat; cbn. split; [|reflexivity].
  split; [discriminate|]. split; [constructor; [lra|constructor]|]. split; [discriminate|]. split; [discriminate|].
  split; [lra|]. split; [lra|]. split; [lra|]. split; [split; lra|]. split; [discriminate|].
  split; [right; left; reflexivity|]. left. split; [reflexivity|]. split; lra.
Qed.

(** ** C114: the two models agree *)

(** The transport length of the single-scattering model, the scattering
    coefficient of the Monte Carlo model and the asymmetry parameter satisfy
    l* mu (1 - g) = 1 for every sample described to both. *)
Theorem C114_transport_length : forall fsolve factorial ang cabs absorbing special I J n ne,
  inputs_ok factorial I n ne -> sample_is fsolve I n ne -> same_sample fsolve I J ->
  (forall m y t, 0 <= fst (ang m y t) /\ 0 <= snd (ang m y t)) -> (forall m y, 0 <= cabs m y) ->
  exists o mu, calc_scat factorial ang special J = Ok o /\ o_mu o = Some mu /\ 0 <= mu
    /\ (0 < mu -> exists r g l, reflection fsolve factorial ang cabs absorbing I = Ok r
          /\ r_asym r = Some g /\ r_lstar r = Some l /\ -1 < g < 1 /\ l * mu * (1 - g) = 1).
Proof. exact agreement. Qed.
Print Assumptions C114_transport_length.

Definition glass_sample : refl_in :=
  mk_rin [RtoC 1.5] (RtoC 1) 1 0.5 [0.1] 0.5 None None None (Some 10) (PI / 2) PI 0 (2 * PI) 0 200 0.1
    (S_name "glass") (Some "sphere"%string) true None false false.
Example C114_case : exists z, forall fsolve, let J := glass_scat false (RtoC 1.5) z (RtoC 1) 0 in
  inputs_ok (fun _ => 1) glass_sample 1 None /\ sample_is fsolve glass_sample 1 None
  /\ same_sample fsolve glass_sample J.
Proof.
  pose proof PI_RGT_0. pose proof PI2_3_2.
  assert (E : exists z, forall fsolve, n_eff fsolve true [RtoC 1.5] [RtoC 1] (vf_array 0.5 [0.1]) = Ok z).
  { set (e := mg_formula (RtoC 1.5) (RtoC 1) ((0.1 ^ 3 - 0 ^ 3) / 0.1 ^ 3 * 0.5)).
    exists (if Reqb (snd e) 0 then RtoC (fst e) else e). intros fsolve.
    unfold n_eff. cbn [length Nat.eqb negb]. unfold vf_array. cbn [last layer_fractions]. fold e.
    destruct (Reqb (snd e) 0); reflexivity. }
  destruct E as [z Ez]. exists z. intros fsolve. cbv zeta. split; [|split].
  - unfold inputs_ok, glass_sample; cbn.
    split; [reflexivity|]. split; [discriminate|]. split; [constructor; [lra|constructor]|].
    split; [discriminate|]. split; [discriminate|]. split; [lra|]. split; [discriminate|].
    split; [lra|]. split; [lra|]. split; [lra|].
    split; [intros L X; injection X as <-; lra|].
    do 4 (split; [lra|]). split; [split; lra|]. split; [split; lra|].
    split; [right; left; reflexivity|]. left. split; [reflexivity|]. split; lra.
  - reflexivity.
  - unfold same_sample, glass_sample, glass_scat; cbn -[n_eff vf_array].
    repeat (split; [reflexivity|]). split; [apply Ez|]. split; [lra|]. split; [discriminate|]. now left.
Qed.

(** ** C115: absorption coefficient *)

(** It is the one of the surroundings' index: intensity decays with it as the
    square of the wave's amplitude. *)
Theorem C115_beer_lambert : forall factorial ang special I o n x_eff L, s_wavelen I <> 0 ->
  calc_scat factorial ang special I = Ok o -> scat_medium I = Ok (n, x_eff) ->
  exp (- o_muabs o * L) = Cmod (wave n (s_wavelen I) L) ^ 2.
Proof.
  intros factorial ang special I o n x_eff L Hw Ho Em. unfold calc_scat in Ho. rewrite Em in Ho. cbn [bind] in Ho.
  assert (E : o_muabs o = 4 * PI * snd n / s_wavelen I).
  { destruct (scat_types I) as [[form st]|]; [|discriminate]. cbn [bind] in Ho.
    destruct (scat_phase _ _ _ _ _ _ _ _) as [pc|]; [|discriminate]. cbn [bind] in Ho.
    destruct (Rltb 0 (s_fine I)).
    - destruct (s_nmatrix I); [|discriminate]. destruct (scat_phase _ _ _ _ _ _ _ _) as [pc'|]; [|discriminate].
      cbn [bind] in Ho. now injection Ho as <-.
    - now injection Ho as <-. }
  rewrite E. unfold wave, Cmod. cbn [fst snd]. set (d := exp (- (2 * PI * snd n * L / s_wavelen I))). set (ph := 2 * PI * fst n * L / s_wavelen I).
  replace ((d * cos ph) ^ 2 + (d * sin ph) ^ 2) with (d ^ 2).
  2:{ pose proof (sin2_cos2 ph) as Q. unfold Rsqr in Q. replace ((d * cos ph) ^ 2 + (d * sin ph) ^ 2) with (d ^ 2 * (sin ph * sin ph + cos ph * cos ph)) by ring. rewrite Q. ring. }
  assert (0 < d) by apply exp_pos.
  rewrite sqrt_pow2 by lra. unfold d. cbn [pow]. rewrite Rmult_1_r, <- exp_plus. f_equal. field. exact Hw.
Qed.
Print Assumptions C115_beer_lambert.

(** It is that of the whole sample only if the form factor is calculated in the
    effective medium: otherwise absorbing particles do not count. *)
Theorem C115_particles_count_partial : forall factorial ang special I o,
  s_emform I = true -> calc_scat factorial ang special I = Ok o ->
  o_muabs o = 4 * PI * snd (s_nsample I) / s_wavelen I.
Proof.
  intros factorial ang special I o He Ho. unfold calc_scat in Ho.
  assert (Em : scat_medium I = Ok (s_nsample I, None)) by (unfold scat_medium; now rewrite He).
  rewrite Em in Ho. cbn [bind] in Ho.
  destruct (scat_types I) as [[form st]|]; [|discriminate]. cbn [bind] in Ho.
  destruct (scat_phase _ _ _ _ _ _ _ _) as [pc|]; [|discriminate]. cbn [bind] in Ho.
  destruct (Rltb 0 (s_fine I)).
  - destruct (s_nmatrix I); [|discriminate]. destruct (scat_phase _ _ _ _ _ _ _ _) as [pc'|]; [|discriminate].
    cbn [bind] in Ho. now injection Ho as <-.
  - now injection Ho as <-.
Qed.
Print Assumptions C115_particles_count_partial.

Theorem C115_particles_count_refuted : forall factorial ang special,
  (forall m y t, 0 <= fst (ang m y t) /\ 0 <= snd (ang m y t)) ->
  exists I o, (exists np, s_np I = [np] /\ 0 < snd np) /\ 0 < snd (s_nsample I) /\ 0 < s_vf I
    /\ calc_scat factorial ang special I = Ok o /\ o_muabs o = 0.
Proof.
  intros factorial ang special Ha.
  destruct (calc_scat_ok factorial ang special (glass_scat false (1.5, 0.1) (1.2, 0.05) (RtoC 1) 0) 1)
    as (o & P & S & x_eff & rho & Eo & _ & _ & _ & _ & _ & _ & _ & _ & Eabs).
  - pose proof PI2_3_2. unfold scat_ok, glass_scat; cbn.
    split; [discriminate|]. split; [constructor; [lra|constructor]|]. split; [discriminate|]. split; [discriminate|].
    split; [lra|]. split; [lra|]. split; [lra|]. split; [split; lra|]. split; [discriminate|].
    split; [right; left; reflexivity|]. left. split; [reflexivity|]. split; lra.
  - unfold surroundings, glass_scat; cbn. split; [reflexivity|discriminate].
  - cbn. lra.
  - exact Ha.
  - exists (glass_scat false (1.5, 0.1) (1.2, 0.05) (RtoC 1) 0), o. split; [exists (1.5, 0.1); split; [reflexivity|cbn; lra]|].
    split; [cbn; lra|]. split; [cbn; lra|]. split; [exact Eo|exact Eabs].
Qed.
Print Assumptions C115_particles_count_refuted.

(** ** C116: rejected arguments *)

Theorem C116_polydisperse_needs_pdi : forall factorial ang special I z, scat_medium I = Ok z ->
  s_poly I = true -> s_pdi I = None -> calc_scat factorial ang special I = Err ValueError.
Proof.
  intros factorial ang special I [n xe] Em Hp Hd. unfold calc_scat. rewrite Em. cbn [bind].
  unfold scat_types. now rewrite Hp, Hd.
Qed.
Print Assumptions C116_polydisperse_needs_pdi.

Theorem C116_no_polydisperse_shells : forall factorial ang special I z, scat_medium I = Ok z ->
  s_poly I = true -> (1 < length (s_np I))%nat -> calc_scat factorial ang special I = Err ValueError.
Proof.
  intros factorial ang special I [n xe] Em Hp Hl. unfold calc_scat. rewrite Em. cbn [bind].
  unfold scat_types. rewrite Hp. destruct (s_pdi I); [|reflexivity].
  rewrite (proj2 (Nat.ltb_lt _ _)) by exact Hl. reflexivity.
Qed.
Print Assumptions C116_no_polydisperse_shells.

(** Roughness needs the matrix index, and so does a form factor outside the
    effective medium (there Python fails with a TypeError); otherwise no matrix
    index is needed. *)
Theorem C116_matrix_index : forall factorial ang special I, s_nmatrix I = None ->
  (s_emform I = false -> calc_scat factorial ang special I = Err TypeError)
  /\ (0 < s_fine I -> forall o, calc_scat factorial ang special I <> Ok o)
  /\ forall n, s_emform I = true -> scat_ok factorial I n -> surroundings I n -> s_fine I <= 0 ->
     (forall m y t, 0 <= fst (ang m y t) /\ 0 <= snd (ang m y t)) ->
     exists o, calc_scat factorial ang special I = Ok o.
Proof.
  intros factorial ang special I Hm. split; [|split].
  - intros He. unfold calc_scat, scat_medium. rewrite He, Hm. now destruct (s_emstruct I).
  - intros Hf o. unfold calc_scat. destruct (scat_medium I) as [[n xe]|]; [|discriminate]. cbn [bind].
    destruct (scat_types I) as [[form st]|]; [|discriminate]. cbn [bind].
    destruct (scat_phase _ _ _ _ _ _ _ _) as [pc|]; [|discriminate]. cbn [bind].
    rewrite (proj2 (Rltb_true _ _)) by exact Hf. rewrite Hm. discriminate.
  - intros n _ SO SU Hf Ha. destruct (calc_scat_ok factorial ang special I n SO SU Hf Ha) as (o & P & S & xe & rho & Eo & _).
    eauto.
Qed.
Print Assumptions C116_matrix_index.

(** The documentation also asks for radius2 and concentration when
    polydisperse=True; a call without them is accepted (both have been given
    default values before the check). *)
Theorem C116_missing_species_refuted : forall ang special,
  (forall m y t, 0 <= fst (ang m y t) /\ 0 <= snd (ang m y t)) ->
  exists I o, s_poly I = true /\ s_radius2 I = None /\ s_conc I = None
    /\ calc_scat (fun _ => 1) ang special I = Ok o.
Proof.
  intros ang special Ha. pose proof PI2_3_2.
  set (I := mk_sin [0.1] [RtoC 1.5] (RtoC 1.2) 0.5 0.5 None None (Some (0.1, 0.1)) true 0 0.1 200 (S_name "polydisperse")
     (Some "sphere"%string) None None true true).
  destruct (calc_scat_ok (fun _ => 1) ang special I 1.2) as (o & P & S & xe & rho & Eo & _).
  - unfold scat_ok, I; cbn.
    split; [discriminate|]. split; [constructor; [lra|constructor]|]. split; [discriminate|]. split; [discriminate|].
    split; [lra|]. split; [lra|]. split; [lra|]. split; [split; lra|]. split; [intros _; split; [discriminate|reflexivity]|].
    split.
    + right; right. split; [reflexivity|]. split; [reflexivity|]. eexists _, _, _. split; [reflexivity|].
      intros s [<-|[<-|[]]]; unfold species_ok, width; cbn [sp_c sp_d sp_pdi nth];
        rewrite Rmax_left by lra; repeat split; try lra; left; lra.
    + do 3 right. split; [reflexivity|]. split; [reflexivity|]. discriminate.
  - reflexivity.
  - cbn. lra.
  - exact Ha.
  - exists I, o. repeat (split; [reflexivity|]). exact Eo.
Qed.
Print Assumptions C116_missing_species_refuted.

(** The combination reflection refuses (form factor in the effective medium,
    structure factor not) is accepted here and treated as if both were. *)
Theorem C116_struct_switch_ignored_refuted : forall factorial ang special I,
  s_emform I = true ->
  calc_scat factorial ang special I
  = calc_scat factorial ang special
      (mk_sin (s_radius I) (s_np I) (s_nsample I) (s_vf I) (s_wavelen I) (s_radius2 I) (s_conc I) (s_pdi I) (s_poly I)
         (s_fine I) (s_min I) (s_num I) (s_structure I) (s_form I) (s_sdata I) (s_nmatrix I) (negb (s_emstruct I)) true).
Proof. intros factorial ang special [] He. cbn in He. subst. reflexivity. Qed.
Print Assumptions C116_struct_switch_ignored_refuted.

Example C116_case : exists I z, scat_medium I = Ok z /\ s_poly I = true /\ s_pdi I = None /\ s_np I = [RtoC 2; RtoC 3].
Proof.
  exists (mk_sin [1; 2] [RtoC 2; RtoC 3] (RtoC 1) 0.5 0.5 None None None true 0 0.1 200 S_none None None None true true).
  eexists. repeat split; reflexivity.
Qed.
