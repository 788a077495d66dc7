(** calc_scat in absorbing media and with fields=True: C126-C129. *)
From Coq Require Import Lia Lra.
From Verif Require Import Num Spec Spec_scatter Spec_optics L_num L_trapezoid M_model M_montecarlo M_structure
  M_refractive_index M_reflection M_absorbing M_scat M_scat_cplx Spec_reflection Spec_absorbing Spec_scat Spec_scat_cplx
  L_montecarlo2 L_slots L_sizes L_reflection L_reflection2 L_dcs L_absorbing L_sampling L_scat L_scat_cplx L_draws
  Properties_absorbing.
From Coquelicot Require Import Complex.
Open Scope R_scope.

(** ** C126: calc_scat in an absorbing medium *)

(** calc_scat succeeds: the scattering coefficient is number density times the
    cross section (averaged over the particles' surfaces) and not negative, the
    absorption coefficient is that of the medium, and unless nothing scatters
    the phase function is a distribution proportional to the differential cross
    section [P] + [S]. *)
Theorem C126_coefficients : forall factorial ang mie integ I n,
  scat_ok_c factorial I n -> surroundings_c I n -> snd n <> 0 -> s_fine I <= 0 ->
  (forall m y t a, 0 <= fst (mie m y t a) /\ 0 <= snd (mie m y t a)) -> (forall k, nonneg_integrator (integ k)) ->
  let k := Cmult (RtoC (2 * PI / s_wavelen I)) n in
  exists o (P S : R -> R) x_eff rho mu, calc_scat_any factorial ang mie integ I = Ok o
    /\ scat_medium I = Ok (n, x_eff) /\ rho * mean_volume I = s_vf I /\ 0 < rho
    /\ (forall t, In t (scat_grid I) ->
          scat_cdcs factorial mie I (form_used I) (structure_used I) n x_eff t = Ok (Some (P t), Some (S t)))
    /\ o_mu o = Some (rho * mu) /\ 0 <= mu
    /\ surface_average I (fun d => fst (fst (integ k (map P (scat_grid I)) (map S (scat_grid I)) d (scat_grid I) 0 (2 * PI)))) mu
    /\ o_mie o = None /\ o_muabs o = 4 * PI * snd n / s_wavelen I
    /\ (let s := total (map (fun t => P t + S t) (scat_grid I)) in
        s <> 0 -> exists q, o_p o = map (fun t => Some (q t)) (scat_grid I)
          /\ total (map q (scat_grid I)) = 1
          /\ forall t, In t (scat_grid I) -> 0 <= q t /\ q t * s = P t + S t).
Proof.
  intros factorial ang mie integ I n SO SU Hn Hf Ha Hi k.
  destruct (calc_scat_any_ok factorial ang mie integ I n SO SU Hn Hf Ha)
    as (o & P & S & x_eff & rho & Eo & Em & Er & Ev & Hr & HPS & Ep & Emu & Emie & Eabs).
  destruct SO as (S1 & S2 & S3 & S4 & S5 & S6 & S7 & S8 & S9 & S10 & S11). pose proof PI_RGT_0.
  exists o, P, S, x_eff, rho. eexists. split; [exact Eo|]. split; [exact Em|]. split; [exact Ev|]. split; [exact Hr|].
  split; [intros t Ht; now apply HPS|]. split; [exact Emu|]. split.
  { apply weighted_nonneg; [apply surfaces_nonneg, S4|]. intros d.
    apply Hi; [| |lra]; apply Forall_map, Forall_forall; intros t Ht; now apply HPS. }
  split; [now apply (surfaces_average I)|].
  split; [exact Emie|]. split; [exact Eabs|]. cbv zeta.
  set (s := total (map (fun t => P t + S t) (scat_grid I))). intros Hs.
  assert (N : forall t, In t (scat_grid I) -> 0 <= P t /\ 0 <= S t) by (intros t Ht; split; now apply HPS).
  assert (0 <= s).
  { apply total_map_nonneg. intros t Ht. destruct (N t Ht). lra. }
  exists (fun t => (P t + S t) / s). rewrite Ep. split; [apply (phase_dist P S (scat_grid I) N Hs)|]. split.
  - rewrite <- (map_map (fun t => P t + S t) (fun x => x / s)), total_div by exact Hs. fold s. field. exact Hs.
  - intros t Ht. destruct (N t Ht). split; [apply Rmult_le_pos; [lra|left; apply Rinv_0_lt_compat; lra]|field; exact Hs].
Qed.
Print Assumptions C126_coefficients.

(** What [P] and [S] are for spheres (of any number of layers): the structure
    factor times Mie's intensities, with relative indices n_particle/n, size
    parameters 2 pi n r/wavelength, at the largest radius. *)
Theorem C126_spheres : forall factorial mie I n x_eff t,
  scat_ok_c factorial I n -> surroundings_c I n -> scat_medium I = Ok (n, x_eff) ->
  form_used I = Some "sphere"%string -> 0 < t <= PI ->
  (forall m y t a, 0 <= fst (mie m y t a) /\ 0 <= snd (mie m y t a)) ->
  let k := Cmult (RtoC (2 * PI / s_wavelen I)) n in
  let f r := mie (map (fun np => Cdiv np n) (s_np I))
                 (map (fun r => Cmult k (RtoC r)) (s_radius I)) t (Cmult k (RtoC r)) in
  exists r s, is_largest r (s_radius I ++ second_radius I) /\ 0 <= s /\ structure_value I n x_eff t s
    /\ scat_cdcs factorial mie I (form_used I) (structure_used I) n x_eff t
       = Ok (Some (s * fst (f r)), Some (s * snd (f r))).
Proof.
  intros factorial mie I n x_eff t (S1 & S2 & S3 & S4 & S5 & S6 & S7 & S8 & S9 & S10 & S11) SU Em Ef Ht Ha k f.
  destruct (scat_medium_c I n SU S1 S2 S5 S6) as (x' & Em' & Hx). rewrite Em in Em'. injection Em' as <-.
  assert (Ex : scat_x I n = map (fun r => Cmult k (RtoC r)) (s_radius I)).
  { unfold scat_x, csize_parameter, size_parameter, k. apply map_ext. intros r.
    replace (RtoC (2 * PI * 1 * r / s_wavelen I)) with (Cmult (RtoC (2 * PI / s_wavelen I)) (RtoC r)); [ring|].
    rewrite <- RtoC_mult. f_equal. field. lra. }
  unfold scat_cdcs.
  destruct (cplx_dcs_ok factorial (fun x kd => mie (scat_m I n) x t kd) (length (s_np I)) n (scat_k I n)
      (scat_distance I) (scat_x I n) x_eff (s_vf I) (structure_used I) (form_used I) (scat_poly I (fst n)) (s_sdata I) t)
      as (v & fp & fs & V0 & P0 & Q0 & Es & Efo & E); try assumption; [intros; apply Ha|].
  exists (scat_distance I), v. split; [now apply distance_largest|]. split; [exact V0|]. split.
  - unfold structure_value. eexists. split; [|exact Es].
    assert (En : map Cmod (scat_x I n) = map (fun r => 2 * PI * Cmod n * r / s_wavelen I) (s_radius I)).
    { unfold scat_x. rewrite map_map. apply map_ext_in. intros r Hr. rewrite Forall_forall in S2. specialize (S2 r Hr).
      unfold csize_parameter. rewrite Cmod_mult, Cmod_R, Rabs_pos_eq by (left; apply size_parameter_pos; lra).
      unfold size_parameter. field. lra. }
    rewrite <- En. apply max_abs_largest.
    + intros E0. rewrite E0 in Hx. inversion Hx.
    + intros a Hin. destruct x_eff as [xe|].
      * unfold scat_medium in Em. destruct (s_emform I), (s_emstruct I), (s_nmatrix I); try discriminate.
        injection Em as _ <-. apply in_map_iff in Hin as (r & <- & _). apply Cmod_ge_0.
      * apply in_map_iff in Hin as (z & <- & _). apply Cmod_ge_0.
  - rewrite E. rewrite Ef in Efo. unfold cplx_form_part in Efo. change (String.eqb "sphere" "sphere") with true in Efo. cbv iota in Efo.
    injection Efo as <- <-. unfold f. rewrite <- Ex. reflexivity.
Qed.
Print Assumptions C126_spheres.

(** The scattering coefficient of the rough surface of an absorbing sample: the
    same particles in the matrix (not the effective medium) and without a
    structure factor. *)
Theorem C126_rough_coefficient : forall factorial ang mie integ I n n',
  scat_ok_c factorial I n -> surroundings_c I n -> snd n <> 0 -> 0 < s_fine I ->
  s_nmatrix I = Some n' -> n' <> RtoC 0 -> snd n' <> 0 ->
  (forall m y t a, 0 <= fst (mie m y t a) /\ 0 <= snd (mie m y t a)) -> (forall k, nonneg_integrator (integ k)) ->
  let k := Cmult (RtoC (2 * PI / s_wavelen I)) n' in
  exists o (P S : R -> R) rho mu, calc_scat_any factorial ang mie integ I = Ok o
    /\ rho * mean_volume I = s_vf I /\ 0 < rho
    /\ (forall t, In t (scat_grid I) ->
          scat_cdcs factorial mie I (form_used I) S_none n' None t = Ok (Some (P t), Some (S t)))
    /\ o_mie o = Some (Some (rho * mu)) /\ 0 <= mu
    /\ surface_average I (fun d => fst (fst (integ k (map P (scat_grid I)) (map S (scat_grid I)) d (scat_grid I) 0 (2 * PI)))) mu.
Proof.
  intros factorial ang mie integ I n n' SO SU Hn Hf Hm Hn0 Hn' Ha Hi k.
  destruct (rough_ok_c factorial ang mie integ I n n' SO SU Hn Hf Hm Hn0 Hn' Ha) as (o & P & S & rho & Eo & Ev & Hr & HPS & Emie).
  destruct SO as (S1 & S2 & S3 & S4 & S5 & S6 & S7 & S8 & S9 & S10 & S11). pose proof PI_RGT_0.
  exists o, P, S, rho. eexists. split; [exact Eo|]. split; [exact Ev|]. split; [exact Hr|].
  split; [intros t Ht; now apply HPS|]. split; [exact Emie|]. split.
  { apply weighted_nonneg; [apply surfaces_nonneg, S4|]. intros d.
    apply Hi; [| |lra]; apply Forall_map, Forall_forall; intros t Ht; now apply HPS. }
  now apply (surfaces_average I).
Qed.
Print Assumptions C126_rough_coefficient.

(** Spheres of index 3/2 and radius 1/10 in a matrix of index [n]. *)
Definition dyed (n : C) (poly : bool) : scat_in :=
  mk_sin [1 / 10] [RtoC (3 / 2)] n (1 / 2) (1 / 2) (Some [1 / 5]) (Some (1 / 4, 3 / 4)) (Some (1 / 10, 1 / 10)) poly 0 (1 / 100) 50
    (S_name "glass") (Some "sphere"%string) None (Some n) true true.
Lemma dyed_ok n poly : n <> RtoC 0 -> scat_ok_c (fun _ => 1) (dyed n poly) n /\ surroundings_c (dyed n poly) n.
Proof.
  intros Hn. pose proof PI_RGT_0. pose proof PI2_3_2. split; [|reflexivity].
  unfold scat_ok_c, dyed, form_used, structure_used; cbn [s_radius s_np s_nsample s_vf s_wavelen s_radius2 s_conc s_pdi s_poly s_min s_structure s_form s_sdata].
  split; [discriminate|]. split; [constructor; [lra|constructor]|].
  split; [intros r2 E; injection E as <-; split; [discriminate|constructor; [lra|constructor]]|].
  split; [intros c0 c1 E; injection E as <- <-; lra|]. split; [exact Hn|]. do 2 (split; [lra|]). split; [lra|].
  split; [intros _; split; [discriminate|reflexivity]|].
  assert (W : width (1 / 10) <= 1 / 3) by (unfold width; rewrite Rmax_left; lra).
  destruct poly; cbn [String.eqb Ascii.eqb Bool.eqb].
  - split; [|right; right; right; repeat split; discriminate].
    right; right. split; [reflexivity|]. split; [reflexivity|]. do 3 eexists. split; [reflexivity|].
    intros s [<-|[<-|[]]]; unfold species_ok; cbn [sp_c sp_d sp_pdi nth other_radius s_radius2 s_radius];
      (split; [lra|]; split; [lra|]; split; [lra|]; split; [now left|lra]).
  - split; [right; now left|]. left. split; [reflexivity|lra].
Qed.
Example C126_case : forall poly, scat_ok_c (fun _ => 1) (dyed (3 / 2, 1 / 100) poly) (3 / 2, 1 / 100)
  /\ surroundings_c (dyed (3 / 2, 1 / 100) poly) (3 / 2, 1 / 100)
  /\ surface_average (dyed (3 / 2, 1 / 100) poly) (fun d => d) (if poly then 7 / 40 else 1 / 5).
Proof.
  intros poly. destruct (dyed_ok (3 / 2, 1 / 100) poly) as [A B]; [intros E; injection E as E _; lra|].
  split; [exact A|]. split; [exact B|]. unfold surface_average, dyed, form_used, second_radius. destruct poly; cbn.
  - lra.
  - exists (1 / 5). split; [|reflexivity]. split; [right; now left|]. intros a [<-|[<-|[]]]; lra.
Qed.

(** ** C127: the two models agree on absorbing samples *)

(** For a sample described to both, [reflection]'s transport length l* and
    asymmetry parameter g and calc_scat's scattering coefficient mu satisfy
    l* mu (1 - g) = 1. *)
Theorem C127_transport_length : forall fsolve factorial casin ang cabs mie integ I J n ne,
  inputs_ok factorial I (fst n) ne ->
  choose_sample (n_eff fsolve (i_mg I) (i_nparticle I) [i_nmatrix I] (vf_array (i_vf I) (i_radius I)))
    (i_nmatrix I) (i_emstruct I) (i_emform I) = Ok (n, ne) -> 0 < snd n ->
  same_sample fsolve I J ->
  (forall m y t a, 0 <= fst (mie m y t a) /\ 0 <= snd (mie m y t a)) -> (forall k, nonneg_integrator (integ k)) ->
  exists o mu, calc_scat_any factorial ang mie integ J = Ok o /\ o_mu o = Some mu /\ 0 <= mu
    /\ (0 < mu -> exists r g,
          reflection_any fsolve factorial casin ang cabs (fun n => integ (Cmult (RtoC (2 * PI / i_wavelen I)) n))
            (refl_cdcs fsolve factorial mie I) I = Ok r
          /\ r_asym r = Some g /\ (g < 1 -> exists l, r_lstar r = Some l /\ l * mu * (1 - g) = 1)).
Proof.
  intros fsolve factorial casin ang cabs mie integ I J n ne HI Hs Hn Hss Ha Hi.
  destruct (agreement_c fsolve factorial ang mie integ I J n ne HI Hs Hn Hss Ha) as (o & P & S & Eo & AS & G & Hg & Hp & Emu & _).
  exists o. eexists. split; [exact Eo|]. split; [exact Emu|].
  set (A := absorbing_args I n) in *. set (integ' := fun n0 => integ (Cmult (RtoC (2 * PI / i_wavelen I)) n0)).
  change (integ (Cmult (RtoC (2 * PI / i_wavelen I)) n)) with (integ' n) in *.
  set (sc := total_abs (integ' n) (surfaces I) A P S) in *.
  assert (Sc0 : 0 <= sc) by (apply total_nonneg; [apply Hi|exact G|exact Hp|intros t Ht; apply (Hg t); now right]).
  pose proof G as (_ & _ & _ & Gr & _). split; [apply Rmult_le_pos; lra|]. intros Hmu.
  assert (Hsc : 0 < sc) by (destruct (Rle_lt_or_eq_dec _ _ Sc0) as [|Z]; [assumption|rewrite <- Z in Hmu; lra]).
  pose proof AS as (_ & _ & Hfa & Hfb).
  destruct (absorbing_law casin (integ' n) n (surfaces I) A (refl_cdcs fsolve factorial mie I n) P S Hfa Hfb G Hg) as (rp & rs & _ & _ & _ & _ & E).
  rewrite (to_absorbing fsolve factorial casin ang cabs integ' (refl_cdcs fsolve factorial mie I) I n AS). fold A. rewrite E.
  eexists. eexists. split; [reflexivity|]. cbn [r_asym r_lstar]. fold sc.
  unfold ndiv. rewrite (proj2 (Reqb_false sc 0)) by lra. cbn [nbind]. split; [reflexivity|].
  set (g := cos_abs (integ' n) (surfaces I) A P S / sc). intros Hg1.
  rewrite (proj2 (Reqb_false (1 - g) 0)) by lra. cbn [nbind]. rewrite (proj2 (Reqb_false (a_rho A) 0)) by lra.
  cbn [nbind]. eexists. split; [reflexivity|]. field. repeat split; lra.
Qed.
Print Assumptions C127_transport_length.

(** The reflectance's dependence on thickness: light penetrates with the sum of
    calc_scat's two coefficients. *)
Theorem C127_penetration : forall fsolve factorial casin ang cabs mie integ I J n ne rp rs,
  inputs_ok factorial I (fst n) ne ->
  choose_sample (n_eff fsolve (i_mg I) (i_nparticle I) [i_nmatrix I] (vf_array (i_vf I) (i_radius I)))
    (i_nmatrix I) (i_emstruct I) (i_emform I) = Ok (n, ne) -> 0 < snd n ->
  same_sample fsolve I J ->
  (forall m y t a, 0 <= fst (mie m y t a) /\ 0 <= snd (mie m y t a)) -> (forall k, nonneg_integrator (integ k)) ->
  fresnel_cplx casin (RtoC (i_nmedium I)) n [i_inc I] = Ok ([Some rp], [Some rs]) ->
  let reflectance th := reflection_any fsolve factorial casin ang cabs (fun n => integ (Cmult (RtoC (2 * PI / i_wavelen I)) n))
            (refl_cdcs fsolve factorial mie I) (in_thickness I th) in
  exists o mu dp ds, calc_scat_any factorial ang mie integ J = Ok o /\ o_mu o = Some mu
    /\ 0 <= mu /\ 0 < o_muabs o
    /\ (forall L, exists r, reflectance (Some L) = Ok r
          /\ let x := mu / (mu + o_muabs o) * (1 - exp (- ((mu + o_muabs o) * L))) in
             r_par r = Some (rp + dp * x) /\ r_perp r = Some (rs + ds * x))
    /\ (exists r, reflectance None = Ok r /\ r_par r = Some (rp + dp) /\ r_perp r = Some (rs + ds)).
Proof.
  intros fsolve factorial casin ang cabs mie integ I J n ne rp rs HI Hs Hn Hss Ha Hi Hf reflectance.
  destruct (agreement_c fsolve factorial ang mie integ I J n ne HI Hs Hn Hss Ha) as (o & P & S & Eo & AS & G & Hg & Hp & Emu & Eabs).
  set (integ' := fun n0 => integ (Cmult (RtoC (2 * PI / i_wavelen I)) n0)).
  destruct (C118_thickness_law fsolve factorial casin ang cabs integ' (refl_cdcs fsolve factorial mie I) I n P S rp rs AS G Hg (Hi _) Hp Hf)
    as (Hka & Hks & T & U & dp & ds & _ & _ & _ & _ & _ & H & (o3 & Ho3 & H31 & H32)).
  exists o. eexists. exists dp, ds. split; [exact Eo|]. split; [exact Emu|]. split; [exact Hks|]. rewrite Eabs. split; [exact Hka|].
  split.
  - intros L. destruct (H L) as (r & E & H1 & H2 & _). exists r. split; [exact E|]. cbv zeta. split; [exact H1|exact H2].
  - exists o3. split; [exact Ho3|]. split; assumption.
Qed.
Print Assumptions C127_penetration.

Definition dyed_film : refl_in :=
  mk_rin [RtoC 1.5] (1.5, 0.01) 1 0.5 [0.1] 0.5 None None None (Some 10) (PI / 2) PI 0 (2 * PI) 0 200 0.1
    (S_name "glass") (Some "sphere"%string) true None false false.
Definition dyed_scat (z : C) : scat_in :=
  mk_sin [0.1] [RtoC 1.5] z 0.5 0.5 None None None false 0 0.1 200 (S_name "glass") (Some "sphere"%string) None
    (Some (1.5, 0.01)) false false.
Example C127_case : exists z, forall fsolve, let n : C := (1.5, 0.01) in
  inputs_ok (fun _ => 1) dyed_film (fst n) None
  /\ choose_sample (n_eff fsolve true [RtoC 1.5] [n] (vf_array 0.5 [0.1])) n false false = Ok (n, None)
  /\ same_sample fsolve dyed_film (dyed_scat z).
Proof.
  pose proof PI_RGT_0. pose proof PI2_3_2.
  assert (E : exists z, forall fsolve, n_eff fsolve true [RtoC 1.5] [(1.5, 0.01)] (vf_array 0.5 [0.1]) = Ok z).
  { set (e := mg_formula (RtoC 1.5) (1.5, 0.01) ((0.1 ^ 3 - 0 ^ 3) / 0.1 ^ 3 * 0.5)).
    exists (if Reqb (snd e) 0 then RtoC (fst e) else e). intros fsolve.
    unfold n_eff. cbn [length Nat.eqb negb]. unfold vf_array. cbn [last layer_fractions]. fold e.
    destruct (Reqb (snd e) 0); reflexivity. }
  destruct E as [z Ez]. exists z. intros fsolve. cbv zeta. split; [|split].
  - unfold inputs_ok, dyed_film; cbn.
    split; [reflexivity|]. split; [discriminate|]. split; [constructor; [lra|constructor]|].
    split; [discriminate|]. split; [discriminate|]. split; [lra|]. split; [discriminate|].
    split; [lra|]. split; [lra|]. split; [lra|].
    split; [intros L X; injection X as <-; lra|].
    do 4 (split; [lra|]). split; [split; lra|]. split; [split; lra|].
    split; [right; left; reflexivity|]. left. split; [reflexivity|]. split; lra.
  - reflexivity.
  - unfold same_sample, dyed_film, dyed_scat; cbn -[n_eff vf_array].
    repeat (split; [reflexivity|]). split; [apply Ez|]. split; [lra|]. split; [discriminate|]. now left.
Qed.

(** ** C128: calc_scat with fields=True *)

(** The phase function is a table (one row per polar angle, one column per
    azimuth) of non-negative numbers adding up to 1, proportional to the
    differential cross section [P] + [S]; the scattering coefficient is number
    density times the integral at the largest radius. *)
Theorem C128_coefficients : forall factorial mie integ poly_cart I nphi n,
  scat_ok_c factorial I n -> surroundings_c I n -> s_fine I <= 0 -> form_used I <> Some "polydisperse"%string ->
  (forall m y t p a, 0 <= fst (mie m y t p a) /\ 0 <= snd (mie m y t p a)) ->
  let k := Cmult (RtoC (2 * PI / s_wavelen I)) n in
  let thetas := scat_grid I in let phis := phi_grid I nphi in
  exists o (P S : R -> R -> R) x_eff rho r, calc_scat_fields factorial mie integ poly_cart I nphi = Ok o
    /\ scat_medium I = Ok (n, x_eff) /\ rho * mean_volume I = s_vf I /\ 0 < rho
    /\ (forall t p, In t thetas ->
        scat_cdcs factorial (fun m x th a => mie m x th p a) I (form_used I) (structure_used I) n x_eff t
          = Ok (Some (P t p), Some (S t p)) /\ 0 <= P t p /\ 0 <= S t p)
    /\ is_largest r (s_radius I ++ second_radius I)
    /\ f_mu o = Some (rho * integ k (tabulate P thetas phis) (tabulate S thetas phis) r thetas phis)
    /\ f_mie o = None /\ f_muabs o = 4 * PI * snd n / s_wavelen I
    /\ (let s := table_total (fun t p => P t p + S t p) thetas phis in
        s <> 0 -> exists q, f_p o = map (fun t => map (fun p => Some (q t p)) phis) thetas
          /\ table_total q thetas phis = 1
          /\ forall t p, In t thetas -> In p phis -> 0 <= q t p /\ q t p * s = P t p + S t p).
Proof.
  intros factorial mie integ pc I nphi n SO SU Hf Hnp Ha k thetas phis.
  destruct (fields_ok factorial mie integ pc I nphi n SO SU Hf Hnp Ha)
    as (o & P & S & x_eff & rho & Eo & Em & Ev & Hr & HPS & Ep & Emu & Emie & Eabs).
  destruct SO as (S1 & S2 & S3 & S4 & S5 & S6 & S7 & S8 & S9 & S10 & S11).
  exists o, P, S, x_eff, rho, (scat_distance I). split; [exact Eo|]. split; [exact Em|]. split; [exact Ev|]. split; [exact Hr|].
  split; [exact HPS|]. split; [now apply distance_largest|]. split; [exact Emu|]. split; [exact Emie|]. split; [exact Eabs|].
  cbv zeta. set (s := table_total (fun t p => P t p + S t p) thetas phis). intros Hs.
  assert (0 <= s).
  { apply total_map_nonneg. intros t Ht. apply total_map_nonneg. intros p Hp. destruct (HPS t p Ht) as (_ & A & B). lra. }
  exists (fun t p => (P t p + S t p) / s). split; [rewrite Ep; now apply phase_table_value|]. split.
  - unfold table_total.
    rewrite (map_ext (fun t => total (map (fun p => (P t p + S t p) / s) phis)) (fun t => total (map (fun p => P t p + S t p) phis) / s)).
    + rewrite <- (map_map (fun t => total (map (fun p => P t p + S t p) phis)) (fun x => x / s)), total_div by exact Hs.
      fold (table_total (fun t p => P t p + S t p) thetas phis). fold s. field. exact Hs.
    + intros t. rewrite <- (map_map (fun p => P t p + S t p) (fun x => x / s)), total_div by exact Hs. reflexivity.
  - intros t p Ht Hp. destruct (HPS t p Ht) as (_ & A & B). split; [apply Rmult_le_pos; [lra|left; apply Rinv_0_lt_compat; lra]|field; exact Hs].
Qed.
Print Assumptions C128_coefficients.

Example C128_case : scat_ok_c (fun _ => 1) (dyed (RtoC (3 / 2)) false) (RtoC (3 / 2))
  /\ surroundings_c (dyed (RtoC (3 / 2)) false) (RtoC (3 / 2)) /\ s_fine (dyed (RtoC (3 / 2)) false) <= 0
  /\ form_used (dyed (RtoC (3 / 2)) false) <> Some "polydisperse"%string.
Proof.
  destruct (dyed_ok (RtoC (3 / 2)) false) as [A B]; [apply L_poly.RtoC_neq; lra|].
  split; [exact A|]. split; [exact B|]. split; [cbn; lra|discriminate].
Qed.

(** ** C129: from phase function to scattering angles *)

(** fields=False, absorbing medium: drawing angles from calc_scat's phase
    function (same smallest angle) never fails if anything is scattered in some
    direction of the grid other than exactly backwards (where sin is 0 in exact
    arithmetic, tiny in floating point), and gives only
    directions into which something is scattered. *)
Theorem C129_angles_of_phase_function : forall factorial ang mie integ I n nevents ntraj u_phi u_theta,
  scat_ok_c factorial I n -> surroundings_c I n -> snd n <> 0 -> s_fine I <= 0 ->
  (forall m y t a, 0 <= fst (mie m y t a) /\ 0 <= snd (mie m y t a)) ->
  (forall e i, 0 <= u_phi e i < 1 /\ 0 <= u_theta e i < 1) ->
  exists o (P S : R -> R) x_eff, calc_scat_any factorial ang mie integ I = Ok o /\ scat_medium I = Ok (n, x_eff)
    /\ (forall t, In t (scat_grid I) ->
          scat_cdcs factorial mie I (form_used I) (structure_used I) n x_eff t = Ok (Some (P t), Some (S t)))
    /\ ((exists t, In t (scat_grid I) /\ t < PI /\ 0 < P t + S t) ->
        exists q l, o_p o = map Some q
          /\ sample_angles_1d nevents ntraj q (s_min I) u_phi u_theta = Ok l /\ length l = (nevents - 1)%nat
          /\ forall e row, nth_error l e = Some row -> length row = ntraj
             /\ forall i theta phi, nth_error row i = Some (theta, phi) ->
                  In theta (scat_grid I) /\ theta < PI /\ 0 < P theta + S theta /\ phi = 2 * PI * u_phi e i).
Proof.
  intros factorial ang mie integ I n nev ntraj up ut SO SU Hn Hf Ha Hu.
  destruct (calc_scat_any_ok factorial ang mie integ I n SO SU Hn Hf Ha)
    as (o & P & S & x_eff & rho & Eo & Em & Er & Ev & Hr & HPS & Ep & _).
  destruct SO as (S1 & S2 & S3 & S4 & S5 & S6 & S7 & S8 & S9 & S10 & S11).
  exists o, P, S, x_eff. split; [exact Eo|]. split; [exact Em|]. split; [intros t Ht; now apply HPS|]. intros Hex.
  set (s := total (map (fun t => P t + S t) (scat_grid I))).
  assert (N : forall t, In t (scat_grid I) -> 0 <= P t /\ 0 <= S t) by (intros t Ht; split; now apply HPS).
  assert (N2 : forall t, In t (scat_grid I) -> 0 <= P t + S t) by (intros t Ht; destruct (N t Ht); lra).
  assert (Hs : 0 < s).
  { destruct Hex as (t & Ht & _ & Hp). unfold s, scat_grid in *. rewrite linspace_grid in *. rewrite map_map.
    apply in_map_iff in Ht as (k & E & Hk). apply in_seq in Hk.
    apply (total_pos_at (fun i => P (grid (s_min I) PI (s_num I) i) + S (grid (s_min I) PI (s_num I) i)) (s_num I) k).
    - intros i Hi. apply N2. apply in_map, in_seq. lia.
    - lia.
    - now rewrite E. }
  destruct (draws_1d (fun t => P t + S t) s (s_min I) (s_num I) nev ntraj up ut S8 Hs N2 Hex Hu) as (l & El & Ll & Hl).
  exists (map (fun t => (P t + S t) / s) (scat_grid I)), l.
  split; [rewrite Ep, map_map; apply (phase_dist P S (scat_grid I) N); fold s; lra|].
  split; [exact El|]. split; [exact Ll|]. exact Hl.
Qed.
Print Assumptions C129_angles_of_phase_function.

(** fields=True: the same if for every azimuth of the grid something is
    scattered there other than exactly backwards. *)
Theorem C129_angles_of_fields : forall factorial mie integ poly_cart I nphi n nevents ntraj u_phi u_theta,
  scat_ok_c factorial I n -> surroundings_c I n -> s_fine I <= 0 -> form_used I <> Some "polydisperse"%string ->
  (forall m y t p a, 0 <= fst (mie m y t p a) /\ 0 <= snd (mie m y t p a)) -> (0 < nphi)%nat ->
  (forall e i, 0 <= u_phi e i < 1 /\ 0 <= u_theta e i < 1) ->
  exists o (P S : R -> R -> R) x_eff, calc_scat_fields factorial mie integ poly_cart I nphi = Ok o
    /\ scat_medium I = Ok (n, x_eff)
    /\ (forall t p, In t (scat_grid I) ->
        scat_cdcs factorial (fun m x th a => mie m x th p a) I (form_used I) (structure_used I) n x_eff t
          = Ok (Some (P t p), Some (S t p)))
    /\ ((forall p, In p (phi_grid I nphi) -> exists t, In t (scat_grid I) /\ t < PI /\ 0 < P t p + S t p) ->
        exists q l, f_p o = map (map Some) q
          /\ sample_angles_2d nevents ntraj q (s_min I) u_phi u_theta = Ok l /\ length l = (nevents - 1)%nat
          /\ forall e row, nth_error l e = Some row -> length row = ntraj
             /\ forall i theta phi, nth_error row i = Some (theta, phi) ->
                  In theta (scat_grid I) /\ theta < PI /\ In phi (phi_grid I nphi) /\ 0 < P theta phi + S theta phi).
Proof.
  intros factorial mie integ pc I nphi n nev ntraj up ut SO SU Hf Hnp Ha Hphi Hu.
  destruct (fields_ok factorial mie integ pc I nphi n SO SU Hf Hnp Ha)
    as (o & P & S & x_eff & rho & Eo & Em & Ev & Hr & HPS & Ep & _).
  destruct SO as (S1 & S2 & S3 & S4 & S5 & S6 & S7 & S8 & S9 & S10 & S11).
  exists o, P, S, x_eff. split; [exact Eo|]. split; [exact Em|]. split; [intros t p Ht; now apply HPS|]. intros Hex.
  set (s := table_total (fun t p => P t p + S t p) (scat_grid I) (phi_grid I nphi)).
  assert (N2 : forall t p, In t (scat_grid I) -> 0 <= P t p + S t p) by (intros t p Ht; destruct (HPS t p Ht) as (_ & A & B); lra).
  assert (Hs : 0 < s).
  { set (p0 := grid (s_min I) (2 * PI) nphi 0).
    assert (Hp0 : In p0 (phi_grid I nphi)).
    { unfold phi_grid. rewrite linspace_grid. apply in_map, in_seq. lia. }
    destruct (Hex p0 Hp0) as (t & Ht & _ & Hp).
    assert (R0 : forall t, In t (scat_grid I) -> 0 <= total (map (fun p => P t p + S t p) (phi_grid I nphi))).
    { intros t' Ht'. apply total_map_nonneg. intros p _. now apply N2. }
    assert (R1 : 0 < total (map (fun p => P t p + S t p) (phi_grid I nphi))).
    { unfold phi_grid. rewrite linspace_grid, map_map. apply (total_pos_at _ nphi 0%nat); [intros; now apply N2|exact Hphi|exact Hp]. }
    unfold s, table_total. set (h := fun t => total (map (fun p => P t p + S t p) (phi_grid I nphi))) in *.
    unfold scat_grid in *. rewrite linspace_grid in *. rewrite map_map.
    apply in_map_iff in Ht as (k & E & Hk). apply in_seq in Hk.
    apply (total_pos_at (fun i => h (grid (s_min I) PI (s_num I) i)) (s_num I) k).
    - intros i Hi. apply R0. apply in_map, in_seq. lia.
    - lia.
    - rewrite E. exact R1. }
  destruct (draws_2d (fun t p => P t p + S t p) s (s_min I) (s_num I) nphi nev ntraj up ut S8 Hs Hphi N2 Hex Hu) as (l & El & Ll & Hl).
  eexists. exists l. split; [|split; [exact El|split; [exact Ll|exact Hl]]].
  rewrite Ep, phase_table_value by (fold s; lra). fold s. rewrite map_map. apply map_ext. intros t. rewrite map_map. reflexivity.
Qed.
Print Assumptions C129_angles_of_fields.

Example C129_case : 0 < 1 / 100 < PI /\ scat_ok_c (fun _ => 1) (dyed (3 / 2, 1 / 100) true) (3 / 2, 1 / 100)
  /\ (exists t, In t (scat_grid (dyed (3 / 2, 1 / 100) true)) /\ t < PI).
Proof.
  pose proof PI2_3_2. pose proof PI_RGT_0. split; [lra|]. destruct (dyed_ok (3 / 2, 1 / 100) true) as [A _]; [intros E; injection E as E _; lra|].
  split; [exact A|]. exists (1 / 100). split; [|lra]. unfold scat_grid, dyed, linspace. apply in_map_iff. exists 0%nat.
  split; [cbn; lra|apply in_seq; cbn; lia].
Qed.
