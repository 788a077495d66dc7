(** C138-C140: films with a coarse (tilted-facet) surface.  Vocabulary in
    Spec_rough.v ([slope_density], [facet_angle], [facet_law], [incident],
    [at_fraction]), Spec.v ([facet_normal], [mirror], [dot], [unit]) and
    Spec_scat.v ([picks]); model in M_rough.v, M_montecarlo.v. *)
From Coq Require Import Lra Lia.
From Verif Require Import Num Spec M_init M_montecarlo M_detector M_scat M_fields M_simulation M_rough
  Spec_rough Spec_scat Spec_detector L_num L_init L_montecarlo L_montecarlo2 L_sampling L_weights L_slots L_outcomes L_simulation L_rough L_rough2.
Open Scope R_scope.

(** ** C138: the facets *)

(** The function returned by P_theta_a is the density of the facet angle for
    which the slope is below x with probability 1 - exp(-x^2 / (2 r^2)). *)
Theorem C138_slope_law : forall r t, r <> 0 -> - (PI / 2) < t < PI / 2 ->
  P_theta_a t r = slope_density r t
  /\ derivable_pt_lim (fun a => 1 - exp (- (tan a) ^ 2 / (2 * r ^ 2))) t (slope_density r t).
Proof.
  intros r t Hr Ht. assert (E : P_theta_a t r = slope_density r t).
  { unfold P_theta_a, slope_density. f_equal. unfold Rdiv. rewrite Rinv_mult. ring. }
  split; [exact E|]. rewrite <- E. now apply slope_cdf_lim.
Qed.
Print Assumptions C138_slope_law.

(** Facet angles are drawn among 500 equally spaced ones with probabilities
    proportional to that density; the angle is strictly between 0 and 90
    degrees. *)
Theorem C138_facets_drawn : forall r ntraj u, r <> 0 -> (forall i, (i < ntraj)%nat -> 0 <= u i < 1) ->
  exists l, sample_facets r ntraj u = Ok l /\ length l = ntraj
    /\ forall i, (i < ntraj)%nat -> exists j, picks (facet_law r) 500 (u i) j
         /\ nth i l 0 = facet_angle j /\ 0 < nth i l 0 < PI / 2.
Proof.
  intros r n u Hr Hu. destruct (sample_facets_ok r n u Hr Hu) as (l & El & Ll & H). exists l. split; [exact El|]. split; [exact Ll|].
  intros i Hi. destruct (H i Hi) as (j & Pj & Ej & Hj). exists j. split; [|split; [|exact Hj]].
  - eapply picks_ext; [|exact Pj]. intros m Hm. now apply facet_law_eq.
  - rewrite Ej. apply facet_angle_at. exact (proj1 Pj).
Qed.
Print Assumptions C138_facets_drawn.

(** Every angle strictly between can be drawn, the flat and the vertical facet
    never. *)
Theorem C138_facets_reached : forall r j, r <> 0 -> (j < 500)%nat ->
  ((0 < j < 499)%nat <-> exists u, 0 <= u < 1 /\ picks (facet_law r) 500 u j).
Proof.
  intros r j Hr Hj. split; [intros H; now apply facet_reached|].
  intros (u & _ & Pu). pose proof (picks_positive _ _ _ _ Pu) as Hp. unfold facet_law in Hp.
  destruct (Nat.eqb_spec j 499) as [E|E]; [lra|]. destruct (Nat.eq_dec j 0) as [->|H0]; [|lia].
  exfalso. unfold slope_density, facet_angle in Hp. cbn [INR] in Hp. rewrite Rmult_0_l, sin_0 in Hp. unfold Rdiv in Hp. rewrite !Rmult_0_l in Hp. lra.
Qed.
Print Assumptions C138_facets_reached.

(** Without roughness all facets are flat. *)
Theorem C138_flat : forall ntraj u i, exists l, sample_facets 0 ntraj u = Ok l /\ length l = ntraj /\ nth i l 0 = 0.
Proof.
  intros n u i. unfold sample_facets. rewrite (proj2 (Reqb_true 0 0)) by reflexivity. exists (repeat 0 n).
  split; [reflexivity|]. split; [apply repeat_length|]. apply nth_repeat.
Qed.
Print Assumptions C138_flat.

Example C138_case : exists l, sample_facets (3 / 10) 100 (fun i => INR i / 100) = Ok l /\ length l = 100%nat.
Proof.
  destruct (C138_facets_drawn (3 / 10) 100 (fun i => INR i / 100)) as (l & El & Ll & _); [lra| |eauto].
  intros i Hi. assert (INR i < INR 100) by (now apply lt_INR). replace (INR 100) with 100 in H by (rewrite INR_IZR_INZ; reflexivity).
  pose proof (pos_INR i). lra.
Qed.

(** ** C139: launch through a tilted facet *)

(** Beyond C63: the angles with the facet's normal obey Snell's law (the
    azimuth does not: C63_rough_refraction_refuted), and the refracted ray goes
    to the far side of the facet. *)
Theorem C139_snell_at_facet : forall k0s ts nm ns out i k' kzr refl,
  0 < nm -> ns <> 0 -> length k0s = length ts -> Forall unit k0s ->
  coarse_roughness_enter film k0s ts nm ns = Ok out -> nth_error out i = Some (Some k', kzr, refl) ->
  let k := nth i k0s vzero in let N := facet_normal (nth i ts 0) in
  unit k' /\ 0 <= dot k' N /\ nm ^ 2 * (1 - dot k N ^ 2) = ns ^ 2 * (1 - dot k' N ^ 2).
Proof.
  intros k0s ts nm ns out i k' kzr refl Hm Hs Hl HU H Hi. cbv zeta. unfold coarse_roughness_enter in H. apply Ok_inj in H. subst out.
  assert (Hlt : (i < length k0s)%nat).
  { assert (i < length (map2 (fun k t => rough_enter1 k t nm ns) k0s ts))%nat by (apply nth_error_Some; rewrite Hi; discriminate).
    rewrite length_map2 in H by exact Hl. exact H. }
  assert (E : rough_enter1 (nth i k0s vzero) (nth i ts 0) nm ns = (Some k', kzr, refl)).
  { apply (nth_error_nth _ _ (rough_enter1 vzero 0 nm ns)) in Hi. rewrite (nth_map2 _ _ _ _ vzero 0) in Hi by lia. exact Hi. }
  assert (U : unit (nth i k0s vzero)) by (rewrite Forall_forall in HU; apply HU, nth_In, Hlt).
  split; [eapply rough_refracted_unit; [|exact E]; now apply Rabs_pos_lt|].
  eapply facet_snell; eauto.
Qed.
Print Assumptions C139_snell_at_facet.

(** initialize(boundary='film', coarse_roughness=r): where light starts, with
    which weight, direction and cosines, for any cone of incidence angles. *)
Theorem C139_rough_launch : forall nevents ntraj spot tmin tmax pmin pmax nm ns r ux uy ut up uf,
  0 < nm <= ns -> r <> 0 -> (forall i, (i < ntraj)%nat -> 0 <= uf i < 1) ->
  exists starts kz0_rot kz0_refl,
    rough_launch nevents ntraj spot tmin tmax pmin pmax nm ns r ux uy ut up uf = Ok (starts, kz0_rot, kz0_refl)
    /\ length starts = ntraj /\ length kz0_rot = ntraj /\ length kz0_refl = ntraj
    /\ forall i s, nth_error starts i = Some s -> exists k' j,
         picks (facet_law r) 500 (uf i) j
         /\ s = ((ux i * spot, uy i * spot, 0), Some k', repeat 1 nevents)
         /\ let k := incident (at_fraction tmin tmax (ut i)) (at_fraction pmin pmax (up i)) in
            let N := facet_normal (facet_angle j) in
            unit k' /\ 0 <= dot k' N /\ nm ^ 2 * (1 - dot k N ^ 2) = ns ^ 2 * (1 - dot k' N ^ 2)
            /\ nth i kz0_rot 0 = dot k N /\ nth i kz0_refl 0 = vz (mirror N k).
Proof.
  intros nev n spot tmin tmax pmin pmax nm ns r ux uy ut up uf Hn Hr Hu.
  destruct (rough_launch_ok nev n spot tmin tmax pmin pmax nm ns r ux uy ut up uf Hn Hr Hu) as (starts & facets & E & Hl & Hf & Hs).
  eexists _, _, _. split; [exact E|]. split; [exact Hl|]. split; [now rewrite map_length, seq_length|]. split; [now rewrite map_length, seq_length|].
  intros i s Hi. assert (Hlt : (i < n)%nat) by (rewrite <- Hl; apply nth_error_Some; rewrite Hi; discriminate).
  destruct (Hs i s Hi) as (k' & -> & Hk). cbv zeta in Hk. destruct (Hf i Hlt) as (j & Pj & Ej & _).
  exists k', j. split; [eapply picks_ext; [|exact Pj]; intros; now apply facet_law_eq|]. split; [reflexivity|]. cbv zeta.
  assert (Ef : facets i = facet_angle j) by (rewrite Ej; apply facet_angle_at; exact (proj1 Pj)).
  rewrite !nth_map_seq by exact Hlt. rewrite Ef in *.
  change (at_fraction tmin tmax (ut i)) with (uniform tmin tmax (ut i)). change (at_fraction pmin pmax (up i)) with (uniform pmin pmax (up i)).
  destruct (rough_enter1 _ _ _ _) as [[a b] c] eqn:Er. cbn [fst] in Hk. subst a.
  split; [eapply rough_refracted_unit; [|exact Er]; rewrite Rabs_right; lra|].
  destruct (facet_snell _ (facet_angle j) nm ns _ _ _ (incident_unit _ _) ltac:(lra) ltac:(lra) Er) as [S1 S2].
  split; [exact S1|]. split; [exact S2|]. split; reflexivity.
Qed.
Print Assumptions C139_rough_launch.

(** Normally incident light on a facet tilted by a: kz0_rot is cos a, the
    reflected ray goes back up exactly if the tilt is below 45 degrees, and the
    refracted ray always goes into the sample. *)
Theorem C139_normal_incidence : forall a nm ns k' kzr refl, 0 <= a < PI / 2 -> 0 < nm <= ns ->
  rough_enter1 ez a nm ns = (Some k', kzr, refl) ->
  kzr = cos a /\ vz refl = - cos (2 * a) /\ (vz refl < 0 <-> a < PI / 4) /\ 0 < vz k'.
Proof.
  intros a nm ns k' kzr refl Ha Hn H. destruct (normal_facet _ _ _ _ _ _ Ha Hn H) as (A & B & D).
  split; [exact A|]. split; [exact B|]. split; [|exact D]. rewrite B. split; intros Hx.
  - destruct (Rlt_le_dec a (PI / 4)) as [L|L]; [exact L|exfalso].
    destruct (Req_dec a (PI / 4)) as [->|Hne].
    + replace (2 * (PI / 4)) with (PI / 2) in Hx by field. rewrite cos_PI2 in Hx. lra.
    + assert (cos (2 * a) < 0) by (apply cos_lt_0; lra). lra.
  - assert (0 < cos (2 * a)) by (apply cos_gt_0; lra). lra.
Qed.
Print Assumptions C139_normal_incidence.

Theorem C139_sphere_rejected : forall k0s ts nm ns, coarse_roughness_enter sphere k0s ts nm ns = Err ValueError.
Proof. reflexivity. Qed.
Print Assumptions C139_sphere_rejected.

Example C139_case : exists k' kzr refl, rough_enter1 ez (PI / 3) 1 (3 / 2) = (Some k', kzr, refl) /\ vz refl = 1 / 2.
Proof.
  pose proof PI_RGT_0. destruct (rough_some ez (PI / 3) 1 (3 / 2)) as [k' Ek]; [rewrite Rabs_right; lra|].
  destruct (rough_enter1 ez (PI / 3) 1 (3 / 2)) as [[a b] c] eqn:E. cbn [fst] in Ek. subst a. exists k', b, c. split; [reflexivity|].
  destruct (C139_normal_incidence (PI / 3) 1 (3 / 2) k' b c) as (_ & -> & _); try lra; [exact E|].
  replace (2 * (PI / 3)) with (PI - PI / 3) by field. rewrite Rtrigo_facts.cos_pi_minus, cos_PI3. lra.
Qed.

(** ** C140: a run on a rough film *)

(** It always ends without exception, and the fractions are fractions. *)
Theorem C140_rough_run : forall nevents ntraj spot tmin tmax pmin pmax mu_scat r P D uf,
  (0 < nevents)%nat -> (0 < ntraj)%nat -> 0 < mu_scat -> 0 <= p_muabs P -> r <> 0 ->
  (forall n i, 0 <= d_u D n i < 1) -> (forall i, (i < ntraj)%nat -> 0 <= uf i < 1) ->
  valid_params P ntraj -> 0 < p_nmedium P <= p_nsample P -> p_boundary P = film -> p_run P = false ->
  exists oo, rough_film_run nevents ntraj spot tmin tmax pmin pmax mu_scat r P D uf = Ok oo
    /\ forall o, oo = Some o -> 0 <= o_refl o /\ 0 <= o_trans o /\ o_refl o + o_trans o <= 1.
Proof.
  intros nev n spot tmin tmax pmin pmax mu r P D uf H1 H2 H3 H4 H5 H6 H7 H8 H9 H10 H11.
  destruct (rough_run_ok nev n spot tmin tmax pmin pmax mu r P D uf) as (oo & f & E & _ & H); try assumption.
  exists oo. split; [exact E|]. intros o Ho. destruct (H o Ho) as (A & B & D' & _). auto.
Qed.
Print Assumptions C140_rough_run.

(** The energy balance of a rough, non-absorbing film: everything is accounted
    for except the light that a facet reflects downwards.  [t i] is the
    fraction of trajectory i that the facet lets in. *)
Theorem C140_balance : forall nevents ntraj spot tmin tmax pmin pmax mu_scat r P D uf o,
  (0 < nevents)%nat -> (0 < ntraj)%nat -> 0 < mu_scat -> p_muabs P = 0 -> r <> 0 ->
  (forall n i, 0 <= d_u D n i < 1) -> (forall i, (i < ntraj)%nat -> 0 <= uf i < 1) ->
  valid_params P ntraj -> 0 < p_nmedium P <= p_nsample P -> p_boundary P = film -> p_run P = false ->
  p_gonio P = None -> full_detection P -> p_nparticle P = None ->
  rough_film_run nevents ntraj spot tmin tmax pmin pmax mu_scat r P D uf = Ok (Some o) ->
  let k i := incident (at_fraction tmin tmax (d_l2 D i)) (at_fraction pmin pmax (d_l3 D i)) in
  exists tilt t : nat -> R,
    (forall i, (i < ntraj)%nat ->
       (exists j, picks (facet_law r) 500 (uf i) j /\ tilt i = facet_angle j)
       /\ fresnel_pass_frac (p_nmedium P) (p_nfront P) (p_nsample P) [acos (Rabs (dot (k i) (facet_normal (tilt i))))] = Ok [t i])
    /\ o_refl o + o_trans o
       = 1 - total (map (fun i => if Rltb 0 (vz (mirror (facet_normal (tilt i)) (k i))) then 1 - t i else 0) (seq 0 ntraj)) / INR ntraj.
Proof.
  intros nev n spot tmin tmax pmin pmax mu r P D uf o H1 H2 H3 H4 H5 H6 H7 H8 H9 H10 H11 H12 H13 H14 Ho k.
  destruct (rough_run_ok nev n spot tmin tmax pmin pmax mu r P D uf) as (oo & f & E & Hf & H); try assumption; [lra|].
  rewrite Ho in E. assert (oo = Some o) by congruence. destruct (H o H0) as (_ & _ & _ & HB).
  exists f, (fun i => pf1 (p_nmedium P) (p_nfront P) (p_nsample P) (acos (Rabs (dot (k i) (facet_normal (f i)))))).
  split; [|exact (HB H12 H13 H14 H4)].
  intros i Hi. split; [destruct (Hf i Hi) as (j & Pj & Ej & _); eauto|].
  apply pass_frac_ok. constructor; [apply film_angle_le|constructor].
Qed.
Print Assumptions C140_balance.

(** So at normal incidence a film whose drawn facets are tilted by at most
    249 * 90/499 degrees (just below 45) conserves energy ... *)
Theorem C140_gentle_slopes_conserve : forall nevents ntraj spot mu_scat r P D uf o,
  (0 < nevents)%nat -> (0 < ntraj)%nat -> 0 < mu_scat -> p_muabs P = 0 -> r <> 0 ->
  (forall n i, 0 <= d_u D n i < 1) -> (forall i, (i < ntraj)%nat -> 0 <= uf i < 1) ->
  (forall i j, (i < ntraj)%nat -> picks (facet_law r) 500 (uf i) j -> (j <= 249)%nat) ->
  valid_params P ntraj -> 0 < p_nmedium P <= p_nsample P -> p_boundary P = film -> p_run P = false ->
  p_gonio P = None -> full_detection P -> p_nparticle P = None ->
  rough_film_run nevents ntraj spot 0 0 0 0 mu_scat r P D uf = Ok (Some o) ->
  o_refl o + o_trans o = 1.
Proof.
  intros nev n spot mu r P D uf o H1 H2 H3 H4 H5 H6 H7 HJ H8 H9 H10 H11 H12 H13 H14 Ho.
  destruct (C140_balance nev n spot 0 0 0 0 mu r P D uf o) as (tilt & t & Ht & ->); try assumption.
  assert (En : forall x, at_fraction 0 0 x = 0) by (intros; unfold at_fraction; ring).
  rewrite (map_ext_in _ (fun _ : nat => 0)).
  - assert (E0 : forall l : list nat, total (map (fun _ : nat => 0) l) = 0) by (induction l as [|a l IH]; cbn [map total]; [reflexivity|rewrite IH; ring]).
    rewrite E0. unfold Rdiv. ring.
  - intros i Hi. apply in_seq in Hi. destruct (Ht i ltac:(lia)) as ((j & Pj & Ej) & _). specialize (HJ i j ltac:(lia) Pj).
    rewrite !En, Ej. replace (incident 0 0) with ez by (unfold incident, ez; rewrite sin_0, cos_0; apply (f_equal2 pair); [apply (f_equal2 pair)|]; ring).
    rewrite (proj2 (Rltb_false _ _)); [reflexivity|].
    assert (E1 : vz (mirror (facet_normal (facet_angle j)) ez) = - cos (2 * facet_angle j)).
    { rewrite cos_2a. unfold mirror, facet_normal, vsub, vscale, dot, ez. cbn. pose proof (cs2 (facet_angle j)). nra. }
    rewrite E1. pose proof PI_RGT_0. assert (0 <= INR j <= 249).
    { split; [apply pos_INR|]. replace 249 with (INR 249) by (rewrite INR_IZR_INZ; reflexivity). now apply le_INR. }
    assert (0 < cos (2 * facet_angle j)) by (apply cos_gt_0; unfold facet_angle; nra). lra.
Qed.
Print Assumptions C140_gentle_slopes_conserve.

(** ... but light reflected by a steeper facet is lost: R + T is then the
    fraction the facet lets in, below 1 - for every roughness and every facet
    steeper than 45 degrees, in a film without absorption, index contrast (but
    for a coverslip of index 3), with a detector that sees everything. *)
Theorem C140_steep_slopes_lose_refuted : forall r j, r <> 0 -> (249 < j < 499)%nat ->
  exists P u o t, p_muabs P = 0 /\ full_detection P /\ p_boundary P = film /\ valid_params P 1
    /\ 0 <= u < 1 /\ picks (facet_law r) 500 u j
    /\ rough_film_run 1 1 1 0 0 0 0 1 r P flat_draws (fun _ => u) = Ok (Some o)
    /\ fresnel_pass_frac 1 (Some 3) 1 [facet_angle j] = Ok [t]
    /\ o_refl o + o_trans o = t /\ t < 1.
Proof.
  intros r j Hr Hj. destruct (rough_loss r j Hr Hj) as (th & u & o & t & Hth & Hu & Pu & Eo & Et & A & B).
  exists (thin_film th), u, o, t. split; [reflexivity|]. split; [reflexivity|]. split; [reflexivity|]. split.
  { unfold valid_params, thin_film. cbn. repeat split; try lra; try discriminate. intros m Em. injection Em as <-. lra. }
  split; [exact Hu|]. split; [exact Pu|]. split; [exact Eo|]. split; [exact Et|]. split; [exact A|exact B].
Qed.
Print Assumptions C140_steep_slopes_lose_refuted.

(** A gentle facet in the same film: a run that meets the hypotheses of
    C140_balance and C140_gentle_slopes_conserve. *)
Example C140_case : exists th u o, rough_film_run 1 1 1 0 0 0 0 1 (1 / 2) (thin_film th) flat_draws (fun _ => u) = Ok (Some o)
  /\ o_refl o + o_trans o = 1.
Proof.
  destruct (thin_run (1 / 2) 100) as (th & u & o & Hth & Hu & Pu & Eo); [lra|lia|]. exists th, u, o. split; [exact Eo|].
  eapply C140_gentle_slopes_conserve; try exact Eo; try lia; try lra; try reflexivity; try (cbn; lra).
  - intros; cbn; lra.
  - intros; exact Hu.
  - intros i j _ Pj. assert (j = 100%nat) as ->; [|lia].
    eapply (picks_unique (facet_law (1 / 2)) 500 u); [|exact Pj|exact Pu]. intros; apply facet_law_nonneg; [lra|assumption].
  - unfold valid_params, thin_film. cbn. repeat split; try lra; try discriminate. intros m Em. injection Em as <-. lra.
Qed.
